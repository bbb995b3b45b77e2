(** Every question is answered with the value for the present iterates, whatever happened before. *)
From Coq Require Import Reals List Arith Bool Lra Lia.
From Verif Require Import CQModel CQSpec CQVec.
Import ListNotations.
Open Scope R_scope.

Section Proofs.
Variables (P : nlp) (o : opts) (safe fixmu : bool) (B0 : bd -> vec) (mu0 : R).
Hypothesis HP : nlp_ok P.
Hypothesis Ho : opts_ok o.
Local Notation "v .[ i ]" := (nth i v 0) (at level 1, format "v .[ i ]").
Definition mucond : Prop := dep_mu P = false \/ fixmu = true.
Local Notation nb := (nb P).
Local Notation sl := (sl P B0).
Definition Exs (x : vec) : env := Env x x [] [] [] [] [] [].
Definition E2 (x s : vec) : env := Env x s [] [] [] [] [] [].

(** what an entry of a cache means *)
Definition NSpec (c : ncid) (vs : list vec) (sc : list R) (r : R) : Prop :=
  match c, vs, sc with
  | NC_f _, [x], [m] => r = obj P m x
  | NC_bar _, [x; s], [m] => safe = true -> r = barrier P o B0 m (E2 x s)
  | NC_nlpcv, [x], [n] => safe = true -> forall t, n = nnum t -> nlpviol P B0 t (Exs x) r
  | NC_uncv _, [x], [n] => safe = true -> forall t, n = nnum t -> un_nlpviol P B0 t (Exs x) r
  | NC_unobv, [x], [n] => forall t, n = nnum t -> norm_is t [(nb XL, oviolL P (Exs x)); (nb XU, oviolU P (Exs x))] r
  | NC_obv, [x], [n] => forall t, n = nnum t -> norm_is t [(nb XL, sviolL P (Exs x)); (nb XU, sviolU P (Exs x))] r
  | NC_pinf _, [x; s], [n] => forall t, n = nnum t -> infeas P t (E2 x s) r
  | NC_dinf _, [x; s; yc; yd; zL; zU; vL; vU], [n] => mucond -> forall t, n = nnum t -> dinfeas P t mu0 (Env x s yc yd zL zU vL vU) r
  | NC_undinf, [x; s; yc; yd; zL; zU; vL; vU], [n] => mucond -> forall t, n = nnum t -> un_dinfeas P t mu0 (Env x s yc yd zL zU vL vU) r
  | NC_compl _, [x; s; zL; zU; vL; vU], [n; m] => safe = true -> forall t, n = nnum t -> compl P B0 t m (Env x s [] [] zL zU vL vU) r
  | NC_centr, [x; s; zL; zU; vL; vU], [] => safe = true -> centr P B0 (Env x s [] [] zL zU vL vU) r
  | NC_nlperr, [x; s; yc; yd; zL; zU; vL; vU], [] => safe = true -> mucond -> nlperr P o B0 mu0 (Env x s yc yd zL zU vL vU) r
  | NC_unnlperr, [x; s; yc; yd; zL; zU; vL; vU], [] => safe = true -> mucond -> un_nlperr P o B0 mu0 (Env x s yc yd zL zU vL vU) r
  | NC_barerr, [x; s; yc; yd; zL; zU; vL; vU], [m] => safe = true -> mucond ->
      exists a b c, dinfeas P NMax mu0 (Env x s yc yd zL zU vL vU) a /\ infeas P NMax (Env x s yc yd zL zU vL vU) b /\
        compl P B0 NMax m (Env x s yc yd zL zU vL vU) c /\
        r = Rmax (Rmax (a / s_d P o (Env x s yc yd zL zU vL vU)) b) (c / s_c P o (Env x s yc yd zL zU vL vU))
  | NC_pde _, [x; s; yc; yd; zL; zU; vL; vU], [m] => safe = true -> mucond -> pderr P B0 mu0 m (Env x s yc yd zL zU vL vU) r
  | NC_pfrac, [x; s; dx; ds], [tau] => safe = true -> 0 <= tau -> pftb P B0 tau (E2 x s) dx ds r
  | NC_dfrac, [zL; zU; vL; vU; d1; d2; d3; d4], [tau] => 0 <= tau ->
      (forall b k, (k < nb b)%nat -> 0 <= mul b (Env [] [] [] [] zL zU vL vU) k) ->
      dftb P tau (Env [] [] [] [] zL zU vL vU) (fun b => match b with XL => d1 | XU => d2 | SL => d3 | SU => d4 end) r
  | NC_avrg _, [x; s; zL; zU; vL; vU], [] => safe = true -> r = avrg P B0 (Env x s [] [] zL zU vL vU)
  | NC_gbtd, [x; s; dx; ds], [m] => safe = true -> r = gbtd P o B0 m (E2 x s) dx ds
  | _, _, _ => True
  end.
Definition VSpec (c : vcid) (vs : list vec) (sc : list R) (v : vec) : Prop :=
  match c, vs, sc with
  | VC_slack _ b, [x], [] => safe = true -> vec_is v (nb b) (sl b (Exs x))
  | VC_gradf _, [x], [m] => v = gobj P m x
  | VC_gbx, [x], [m] => safe = true -> vec_is v (n_x P) (gbar_x P o B0 m (Exs x))
  | VC_gbs, [s], [m] => safe = true -> vec_is v (n_s P) (gbar_s P o B0 m (Exs s))
  | VC_gkx, [], [_] => vec_is v (n_x P) (dampg_x P o)
  | VC_gks, [], [_] => vec_is v (n_s P) (dampg_s P o)
  | VC_c _, [x], [] => v = fn_c P x
  | VC_d _, [x], [] => v = fn_d P x
  | VC_dms _, [x; s], [] => vec_is v (n_s P) (fun i => (fn_d P x).[i] - s.[i])
  | VC_jcv, [x; w], [] => vec_is v (n_c P) (Jv (fn_Jc P x) w)
  | VC_jdv, [x; w], [] => vec_is v (n_s P) (Jv (fn_Jd P x) w)
  | VC_jcT _, [x; w], [] => vec_is v (n_x P) (JTv (fn_Jc P x) w)
  | VC_jdT _, [x; w], [] => vec_is v (n_x P) (JTv (fn_Jd P x) w)
  | VC_glx _, [x; yc; yd; zL; zU], [] => mucond -> vec_is v (n_x P) (glag_x P mu0 (Env x [] yc yd zL zU [] []))
  | VC_gls _, [yd; vL; vU], [] => vec_is v (n_s P) (glag_s P (Env [] [] [] yd [] [] vL vU))
  | VC_gldx, [x; yc; yd; zL; zU], [m] => mucond ->
      vec_is v (n_x P) (fun i => glag_x P mu0 (Env x [] yc yd zL zU [] []) i + m * dampg_x P o i)
  | VC_glds, [yd; vL; vU], [m] => vec_is v (n_s P) (fun i => glag_s P (Env [] [] [] yd [] [] vL vU) i + m * dampg_s P o i)
  | VC_compl _ b, [a; z], [] => safe = true -> vec_is v (nb b) (fun k => a.[k] * z.[k])
  | VC_relc b, [a; z], [m] => safe = true -> vec_is v (nb b) (fun k => a.[k] * z.[k] - m)
  | VC_oxL, [x], [] => vec_is v (nb XL) (sviolL P (Exs x))
  | VC_oxU, [x], [] => vec_is v (nb XU) (sviolU P (Exs x))
  | VC_sigx, [x; zL; zU], [] => safe = true -> vec_is v (n_x P) (sigma_x P B0 (Env x [] [] [] zL zU [] []))
  | VC_sigs, [s; vL; vU], [] => safe = true -> vec_is v (n_s P) (sigma_s P B0 (Env [] s [] [] [] [] vL vU))
  | _, _, _ => True
  end.
Definition MSpec (c : mcid) (vs : list vec) (sc : list R) (m : mat) : Prop :=
  match c, vs, sc with
  | MC_jc _, [x], [] => m = fn_Jc P x
  | MC_jd _, [x], [] => m = fn_Jd P x
  | MC_h, [x; yc; yd], [k] => m = hess P k x yc yd
  | _, _, _ => True
  end.
Definition PSpec (vs : list vec) (sc : list R) (a b : vec) : Prop :=
  match vs, sc with
  | [x], [] => vec_is a (nb XL) (oviolL P (Exs x)) /\ vec_is b (nb XU) (oviolU P (Exs x))
  | _, _ => True
  end.

(** tag t stands for the values v *)
Definition hv (s : st) (t : nat) (v : vec) : Prop := (t < length (store s))%nat /\ val s t = v.
Lemma hv_fun s t v w : hv s t v -> hv s t w -> v = w.
Proof. intros [_ H1] [_ H2]. congruence. Qed.

Record view := Vw { v_c : iter; v_t : iter; v_d : iter; v_ec : env; v_et : env; v_ed : env; v_mu : R; v_bnd : bd -> vec }.
Definition vw (s : st) : view :=
  Vw (curr s) (trial s) (delta s) (envof s (curr s)) (envof s (trial s)) (envof s (delta s)) (mu s) (bnd s).
Definition v_it (V : view) (w : bool) : iter := if w then v_t V else v_c V.
Definition v_env (V : view) (w : bool) : env := if w then v_et V else v_ec V.

Record Inv (s : st) : Prop := {
  I_n : forall c k r, In (k, r) (nca s c) -> exists vs, Forall2 (hv s) (fst k) vs /\ NSpec c vs (snd k) r;
  I_v : forall c k t, In (k, t) (vca s c) -> exists vs v, Forall2 (hv s) (fst k) vs /\ hv s t v /\ VSpec c vs (snd k) v;
  I_m : forall c k m, In (k, m) (mca s c) -> exists vs, Forall2 (hv s) (fst k) vs /\ MSpec c vs (snd k) m;
  I_p : forall k t u, In (k, (t, u)) (pca s) -> exists vs a b, Forall2 (hv s) (fst k) vs /\ hv s t a /\ hv s u b /\ PSpec vs (snd k) a b;
  I_damp : forall d, damp s = Some d -> d = (fst (damp_LU (n_x P) (pxL P) (pxU P)), snd (damp_LU (n_x P) (pxL P) (pxU P)),
                                             fst (damp_LU (n_s P) (pdL P) (pdU P)), snd (damp_LU (n_s P) (pdL P) (pdU P)));
  I_c : iter_ok P o safe B0 s (curr s);
  I_t : iter_ok P o safe B0 s (trial s);
  I_d : allocated s (delta s) /\ dims_ok P (envof s (delta s));
  I_b : forall b, length (bnd s b) = nb b /\ (safe = true -> bnd s b = B0 b);
  I_mu : fixmu = true -> mu s = mu0
}.

Definition ext (s s' : st) : Prop := (exists l, store s' = store s ++ l) /\ vw s' = vw s.
Lemma ext_refl s : ext s s.
Proof. split; [exists []; rewrite app_nil_r; reflexivity|reflexivity]. Qed.
Lemma ext_trans a b c : ext a b -> ext b c -> ext a c.
Proof.
  intros [[l E] E1] [[l' E'] E2]. split; [exists (l ++ l'); rewrite E', E, app_assoc; reflexivity|congruence].
Qed.
Lemma hv_app s s' l t v : store s' = store s ++ l -> hv s t v -> hv s' t v.
Proof.
  intros E [H1 H2]. split; [rewrite E, app_length; lia|]. unfold val in *. rewrite E, app_nth1 by exact H1. exact H2.
Qed.
Lemma hv_mono s s' t v : ext s s' -> hv s t v -> hv s' t v.
Proof. intros [[l E] _]. apply (hv_app _ _ _ _ _ E). Qed.
Lemma hvs_app s s' l ts vs : store s' = store s ++ l -> Forall2 (hv s) ts vs -> Forall2 (hv s') ts vs.
Proof. intros E. induction 1; constructor; [eapply hv_app; eauto|assumption]. Qed.
Lemma hvs_mono s s' ts vs : ext s s' -> Forall2 (hv s) ts vs -> Forall2 (hv s') ts vs.
Proof. intros [[l E] _]. apply (hvs_app _ _ _ _ _ E). Qed.
Lemma hvs_fun s ts : forall vs ws, Forall2 (hv s) ts vs -> Forall2 (hv s) ts ws -> vs = ws.
Proof.
  induction ts as [|t ts IH]; intros vs ws H1 H2; inversion H1; inversion H2; subst; [reflexivity|].
  f_equal; [eapply hv_fun; eauto|apply IH; assumption].
Qed.
Lemma val_app s s' l t : store s' = store s ++ l -> (t < length (store s))%nat -> val s' t = val s t.
Proof. intros E H. unfold val. rewrite E, app_nth1 by exact H. reflexivity. Qed.
Lemma env_app s s' l i : store s' = store s ++ l -> allocated s i -> envof s' i = envof s i.
Proof.
  intros E H. unfold allocated in H.
  repeat match goal with H : Forall _ (_ :: _) |- _ => apply Forall_cons_iff in H; destruct H end.
  unfold envof. f_equal; apply (val_app _ _ _ _ E); assumption.
Qed.
Lemma allocated_app s s' l i : store s' = store s ++ l -> allocated s i -> allocated s' i.
Proof. intros E. unfold allocated. apply Forall_impl. intros t H. rewrite E, app_length. lia. Qed.
Lemma iter_app s s' l i : store s' = store s ++ l -> iter_ok P o safe B0 s i -> iter_ok P o safe B0 s' i.
Proof.
  intros E (H1 & H2 & H3). split; [eapply allocated_app; eauto|]. rewrite (env_app _ _ _ _ E H1). split; assumption.
Qed.
(** what changes the store only *)
Lemma inv_store s v : Inv s -> Inv (set_store s (store s ++ [v])).
Proof.
  intros [? ? ? ? ? ? ? [? ?] ? ?]. set (s' := set_store s (store s ++ [v])).
  assert (E : store s' = store s ++ [v]) by reflexivity.
  constructor; try assumption.
  - intros c k r Hin. destruct (I_n0 c k r Hin) as (vs & A & B). exists vs. split; [eapply hvs_app; eauto|exact B].
  - intros c k t Hin. destruct (I_v0 c k t Hin) as (vs & u & A & C & B). exists vs, u. split; [eapply hvs_app; eauto|]. split; [eapply hv_app; eauto|exact B].
  - intros c k t Hin. destruct (I_m0 c k t Hin) as (vs & A & B). exists vs. split; [eapply hvs_app; eauto|exact B].
  - intros k t u Hin. destruct (I_p0 k t u Hin) as (vs & a & b & A & A1 & A2 & B). exists vs, a, b. split; [eapply hvs_app; eauto|].
    split; [eapply hv_app; eauto|]. split; [eapply hv_app; eauto|exact B].
  - eapply iter_app; eauto.
  - eapply iter_app; eauto.
  - change (delta s') with (delta s). split; [eapply allocated_app; eauto|]. rewrite (env_app _ _ _ _ E) by assumption. assumption.
Qed.
Lemma ext_store s v : Inv s -> ext s (set_store s (store s ++ [v])).
Proof.
  intros [? ? ? ? ? [? _] [? _] [? _] ? ?]. split; [exists [v]; reflexivity|].
  unfold vw. cbn [curr trial delta mu bnd set_store].
  rewrite !(env_app s (set_store s (store s ++ [v])) [v]) by (reflexivity || assumption). reflexivity.
Qed.

(** * Facts about an iterate *)
Lemma iv_iter s w : Inv s -> iter_ok P o safe B0 s (itw w s).
Proof. intros H. destruct w; [apply (I_t _ H)|apply (I_c _ H)]. Qed.
Lemma iv_env s V w : Inv s -> vw s = V -> dims_ok P (v_env V w) /\ (safe = true -> interior P o B0 (v_env V w)).
Proof. intros H <-. destruct (iv_iter s w H) as (_ & H2 & H3). destruct w; split; assumption. Qed.
Ltac allocs H := unfold allocated in H; repeat match goal with H : Forall _ (_ :: _) |- _ => apply Forall_cons_iff in H; destruct H end.
Lemma it_all s V w : Inv s -> vw s = V ->
  hv s (i_x (v_it V w)) (e_x (v_env V w)) /\ hv s (i_s (v_it V w)) (e_s (v_env V w)) /\
  hv s (i_yc (v_it V w)) (e_yc (v_env V w)) /\ hv s (i_yd (v_it V w)) (e_yd (v_env V w)) /\
  hv s (i_zL (v_it V w)) (e_zL (v_env V w)) /\ hv s (i_zU (v_it V w)) (e_zU (v_env V w)) /\
  hv s (i_vL (v_it V w)) (e_vL (v_env V w)) /\ hv s (i_vU (v_it V w)) (e_vU (v_env V w)).
Proof.
  intros H <-. destruct (iv_iter s w H) as (H1 & _ & _). allocs H1.
  destruct w; repeat split; assumption || reflexivity.
Qed.
Lemma it_x s V w : Inv s -> vw s = V -> hv s (i_x (v_it V w)) (e_x (v_env V w)). Proof. intros H E. apply (it_all s V w H E). Qed.
Lemma it_s s V w : Inv s -> vw s = V -> hv s (i_s (v_it V w)) (e_s (v_env V w)). Proof. intros H E. apply (it_all s V w H E). Qed.
Lemma it_yc s V w : Inv s -> vw s = V -> hv s (i_yc (v_it V w)) (e_yc (v_env V w)). Proof. intros H E. apply (it_all s V w H E). Qed.
Lemma it_yd s V w : Inv s -> vw s = V -> hv s (i_yd (v_it V w)) (e_yd (v_env V w)). Proof. intros H E. apply (it_all s V w H E). Qed.
Lemma it_zL s V w : Inv s -> vw s = V -> hv s (i_zL (v_it V w)) (e_zL (v_env V w)). Proof. intros H E. apply (it_all s V w H E). Qed.
Lemma it_zU s V w : Inv s -> vw s = V -> hv s (i_zU (v_it V w)) (e_zU (v_env V w)). Proof. intros H E. apply (it_all s V w H E). Qed.
Lemma it_vL s V w : Inv s -> vw s = V -> hv s (i_vL (v_it V w)) (e_vL (v_env V w)). Proof. intros H E. apply (it_all s V w H E). Qed.
Lemma it_vU s V w : Inv s -> vw s = V -> hv s (i_vU (v_it V w)) (e_vU (v_env V w)). Proof. intros H E. apply (it_all s V w H E). Qed.
Lemma it_dx s V : Inv s -> vw s = V -> hv s (i_x (v_d V)) (e_x (v_ed V)).
Proof. intros H <-. destruct (I_d _ H) as [H1 _]. allocs H1. split; [assumption|reflexivity]. Qed.
Lemma it_ds s V : Inv s -> vw s = V -> hv s (i_s (v_d V)) (e_s (v_ed V)).
Proof. intros H <-. destruct (I_d _ H) as [H1 _]. allocs H1. split; [assumption|reflexivity]. Qed.
Lemma iv_bnd s V b : Inv s -> vw s = V -> length (v_bnd V b) = nb b /\ (safe = true -> v_bnd V b = B0 b).
Proof. intros H <-. apply (I_b _ H). Qed.

(** * Triples *)
Definition wp {A} (m : M A) (Q : A -> st -> Prop) (s : st) : Prop :=
  let (a, s') := m s in Inv s' /\ ext s s' /\ Q a s'.
Definition wpV (m : M nat) (Q : vec -> Prop) (s : st) : Prop := wp m (fun t s' => exists v, hv s' t v /\ Q v) s.
Definition wpN {A} (m : M A) (Q : A -> Prop) (s : st) : Prop := wp m (fun r _ => Q r) s.
Lemma wp_bind {A B} (m : M A) (f : A -> M B) Q R s : wp m Q s ->
  (forall a s', Inv s' -> ext s s' -> Q a s' -> wp (f a) R s') -> wp (bind m f) R s.
Proof.
  unfold wp, bind. destruct (m s) as [a s']. intros (H1 & H2 & H3) H. specialize (H a s' H1 H2 H3).
  destruct (f a s') as [b s'']. destruct H as (K1 & K2 & K3). split; [exact K1|]. split; [eapply ext_trans; eauto|exact K3].
Qed.
Lemma wp_bindV {B} (m : M nat) (f : nat -> M B) Q R s : wpV m Q s ->
  (forall t v s', Inv s' -> ext s s' -> hv s' t v -> Q v -> wp (f t) R s') -> wp (bind m f) R s.
Proof. intros H K. eapply wp_bind; [exact H|]. intros t s' H1 H2 (v & H3 & H4). eapply K; eauto. Qed.
Lemma wp_bindN {A B} (m : M A) (f : A -> M B) Q R s : wpN m Q s ->
  (forall r s', Inv s' -> ext s s' -> Q r -> wp (f r) R s') -> wp (bind m f) R s.
Proof. intros H K. eapply wp_bind; [exact H|]. intros r s' H1 H2 H3. eapply K; eauto. Qed.
Lemma wp_ret {A} (a : A) (Q : A -> st -> Prop) s : Inv s -> Q a s -> wp (ret a) Q s.
Proof. intros H1 H2. split; [exact H1|]. split; [apply ext_refl|exact H2]. Qed.
Lemma wpN_ret {A} (a : A) (Q : A -> Prop) s : Inv s -> Q a -> wpN (ret a) Q s.
Proof. intros. apply wp_ret; assumption. Qed.
Lemma wp_gets {A B} (f : st -> A) (g : A -> M B) Q s : wp (g (f s)) Q s -> wp (bind (gets f) g) Q s.
Proof. exact (fun H => H). Qed.
Lemma wp_tg {B} w c (g : nat -> M B) Q s V : vw s = V -> wp (g (c (v_it V w))) Q s -> wp (bind (tg w c) g) Q s.
Proof. intros <-. exact (fun H => H). Qed.
Lemma wp_mu {B} (g : R -> M B) Q s V : vw s = V -> wp (g (v_mu V)) Q s -> wp (bind cmu g) Q s.
Proof. intros <-. exact (fun H => H). Qed.
Lemma wp_rd {B} t v (g : vec -> M B) Q s : hv s t v -> wp (g v) Q s -> wp (bind (rd t) g) Q s.
Proof. intros [_ <-]. exact (fun H => H). Qed.
Lemma wp_bnd {B} b (g : vec -> M B) Q s V : vw s = V -> wp (g (v_bnd V b)) Q s -> wp (bind (gets (fun s => bnd s b)) g) Q s.
Proof. intros <-. exact (fun H => H). Qed.
Lemma wp_newv v (Q : vec -> Prop) s : Inv s -> Q v -> wpV (newv v) Q s.
Proof.
  intros H HQ. split; [apply inv_store; exact H|]. split; [apply ext_store; exact H|].
  exists v. split; [|exact HQ]. split; [cbn; rewrite app_length; cbn; lia|]. unfold val. cbn. rewrite app_nth2, Nat.sub_diag by lia. reflexivity.
Qed.
Lemma wp_conseq {A} (m : M A) (Q R : A -> st -> Prop) s : wp m Q s -> (forall a s', Q a s' -> R a s') -> wp m R s.
Proof. unfold wp. destruct (m s). intros (H1 & H2 & H3) H. auto. Qed.
Lemma wpV_conseq m (Q R : vec -> Prop) s : wpV m Q s -> (forall v, Q v -> R v) -> wpV m R s.
Proof. intros H K. eapply wp_conseq; [exact H|]. intros t s' (v & H1 & H2). exists v. auto. Qed.
Lemma wpN_conseq {A} (m : M A) (Q R : A -> Prop) s : wpN m Q s -> (forall v, Q v -> R v) -> wpN m R s.
Proof. intros H K. eapply wp_conseq; [exact H|]. intros t s' H1. auto. Qed.

(** * Caches *)
Lemma look_In {A} (l : list (key * A)) k a : look l k = Some a -> In (k, a) l.
Proof.
  induction l as [|[k' b] l IH]; cbn; [discriminate|]. destruct (key_dec k' k) as [->|]; [|auto].
  intros H. injection H as ->. left; reflexivity.
Qed.
Lemma firstn_In' {A} n (l : list A) x : In x (firstn n l) -> In x l.
Proof. revert l. induction n; intros [|y l]; cbn; try tauto. intros [->|H]; auto. Qed.
Lemma inv_nadd s c k r vs : Inv s -> Forall2 (hv s) (fst k) vs -> NSpec c vs (snd k) r ->
  Inv (set_nca s c (firstn (nsize c) ((k, r) :: nca s c))).
Proof.
  intros [? ? ? ? ? ? ? ? ? ?] H1 H2. constructor; try assumption.
  intros c' k' r' H. cbn in H. destruct (ncid_dec c' c) as [->|]; [|apply I_n0; exact H].
  apply firstn_In' in H. destruct H as [E|H]; [injection E as <- <-; exists vs; split; assumption|apply I_n0; exact H].
Qed.
Lemma inv_vadd s c k t v vs : Inv s -> Forall2 (hv s) (fst k) vs -> hv s t v -> VSpec c vs (snd k) v ->
  Inv (set_vca s c (firstn (vsize c) ((k, t) :: vca s c))).
Proof.
  intros [? ? ? ? ? ? ? ? ? ?] H1 H1' H2. constructor; try assumption.
  intros c' k' r' H. cbn in H. destruct (vcid_dec c' c) as [->|]; [|apply I_v0; exact H].
  apply firstn_In' in H. destruct H as [E|H]; [injection E as <- <-; exists vs, v; auto|apply I_v0; exact H].
Qed.
Lemma inv_madd s c k m vs : Inv s -> Forall2 (hv s) (fst k) vs -> MSpec c vs (snd k) m ->
  Inv (set_mca s c (firstn 1 ((k, m) :: mca s c))).
Proof.
  intros [? ? ? ? ? ? ? ? ? ?] H1 H2. constructor; try assumption.
  intros c' k' r' H. unfold set_mca in H. cbn [mca] in H. destruct (mcid_dec c' c) as [->|]; [|apply I_m0; exact H].
  apply firstn_In' in H. destruct H as [E|H]; [injection E as <- <-; exists vs; split; assumption|apply I_m0; exact H].
Qed.
Lemma ext_same s s' : store s' = store s -> vw s' = vw s -> ext s s'.
Proof. intros E1 E2. split; [exists []; rewrite app_nil_r; exact E1|exact E2]. Qed.

Lemma wp_qn2 c1 c2 ts sc tsa sca vs vsa comp s : Inv s -> Forall2 (hv s) ts vs -> Forall2 (hv s) tsa vsa ->
  (forall r, NSpec c1 vs sc r -> NSpec c1 vsa sca r) ->
  (match c2 with Some c2 => forall r, NSpec c2 vs sc r -> NSpec c1 vs sc r | None => True end) ->
  wpN comp (NSpec c1 vs sc) s -> wpN (qn2 c1 c2 (ts, sc) (tsa, sca) comp) (NSpec c1 vs sc) s.
Proof.
  intros HI Hv Hva Ha Hc Hcomp. unfold qn2, nget. apply wp_gets.
  destruct (look (nca s c1) (ts, sc)) as [r|] eqn:E.
  - apply wp_ret; [exact HI|]. apply look_In in E. destruct (I_n _ HI _ _ _ E) as (ws & H1 & H2). cbn [fst snd] in *.
    rewrite (hvs_fun _ _ _ _ Hv H1). exact H2.
  - assert (K : forall r s', Inv s' -> ext s s' -> NSpec c1 vs sc r -> wp (do u <- nadd c1 (tsa, sca) r; ret r) (fun r _ => NSpec c1 vs sc r) s').
    { intros r s' HI' HE Hr. unfold bind, nadd, ret, wp. split; [|split; [|exact Hr]].
      - eapply inv_nadd; [exact HI'|cbn; eapply hvs_mono; [exact HE|exact Hva]|apply Ha; exact Hr].
      - apply ext_same; reflexivity. }
    destruct c2 as [c2|].
    + apply wp_gets. destruct (look (nca s c2) (ts, sc)) as [r|] eqn:E2.
      * apply look_In in E2. destruct (I_n _ HI _ _ _ E2) as (ws & H1 & H2). cbn [fst snd] in *.
        rewrite <- (hvs_fun _ _ _ _ Hv H1) in H2. eapply wp_bindN; [apply (wpN_ret r (NSpec c1 vs sc)); [exact HI|apply Hc; exact H2]|].
        intros r0 s' HI' HE Hr. apply K; assumption.
      * eapply wp_bindN; [exact Hcomp|]. intros r s' HI' HE Hr. apply K; assumption.
    + unfold bind at 1, ret at 1. eapply wp_bindN; [exact Hcomp|]. intros r s' HI' HE Hr. apply K; assumption.
Qed.
Lemma wp_qn c1 c2 ts sc vs comp s : Inv s -> Forall2 (hv s) ts vs ->
  (match c2 with Some c2 => forall r, NSpec c2 vs sc r -> NSpec c1 vs sc r | None => True end) ->
  wpN comp (NSpec c1 vs sc) s -> wpN (qn c1 c2 (ts, sc) comp) (NSpec c1 vs sc) s.
Proof. intros. apply wp_qn2 with (vsa := vs); auto. Qed.
Lemma wp_qv2 ad c1 c2 ts sc vs comp s : Inv s -> Forall2 (hv s) ts vs ->
  (match c2 with Some c2 => forall r, VSpec c2 vs sc r -> VSpec c1 vs sc r | None => True end) ->
  wpV comp (VSpec c1 vs sc) s -> wpV (qv2 ad c1 c2 (ts, sc) comp) (VSpec c1 vs sc) s.
Proof.
  intros HI Hv Hc Hcomp. unfold qv2, vget. apply wp_gets.
  destruct (look (vca s c1) (ts, sc)) as [r|] eqn:E.
  - apply wp_ret; [exact HI|]. apply look_In in E. destruct (I_v _ HI _ _ _ E) as (ws & v & H1 & H2 & H3). cbn [fst snd] in *.
    exists v. split; [exact H2|]. rewrite (hvs_fun _ _ _ _ Hv H1). exact H3.
  - assert (K : forall t v s', Inv s' -> ext s s' -> hv s' t v -> VSpec c1 vs sc v ->
        wp (if ad then do u <- vadd c1 (ts, sc) t; ret t else ret t) (fun t s' => exists v, hv s' t v /\ VSpec c1 vs sc v) s').
    { intros t v s' HI' HE Hh Hr. destruct ad; [|apply wp_ret; [exact HI'|exists v; auto]].
      unfold bind, vadd, ret, wp. split; [|split; [|exists v; split; [exact Hh|exact Hr]]].
      - eapply inv_vadd; [exact HI'|cbn; eapply hvs_mono; [exact HE|exact Hv]|exact Hh|exact Hr].
      - apply ext_same; reflexivity. }
    destruct c2 as [c2|].
    + apply wp_gets. destruct (look (vca s c2) (ts, sc)) as [r|] eqn:E2.
      * apply look_In in E2. destruct (I_v _ HI _ _ _ E2) as (ws & v & H1 & H2 & H3). cbn [fst snd] in *.
        rewrite <- (hvs_fun _ _ _ _ Hv H1) in H3.
        unfold bind at 1, ret at 1. apply (K r v s); [exact HI|apply ext_refl|exact H2|apply Hc; exact H3].
      * eapply wp_bindV; [exact Hcomp|]. intros t v s' HI' HE Hh Hr. apply (K t v s'); assumption.
    + unfold bind at 1, ret at 1. eapply wp_bindV; [exact Hcomp|]. intros t v s' HI' HE Hh Hr. apply (K t v s'); assumption.
Qed.
Lemma wp_qv c1 c2 ts sc vs comp s : Inv s -> Forall2 (hv s) ts vs ->
  (match c2 with Some c2 => forall r, VSpec c2 vs sc r -> VSpec c1 vs sc r | None => True end) ->
  wpV comp (VSpec c1 vs sc) s -> wpV (qv c1 c2 (ts, sc) comp) (VSpec c1 vs sc) s.
Proof. apply wp_qv2. Qed.
Lemma wp_qm c1 c2 ts sc vs comp s : Inv s -> Forall2 (hv s) ts vs ->
  (match c2 with Some c2 => forall r, MSpec c2 vs sc r -> MSpec c1 vs sc r | None => True end) ->
  wpN comp (MSpec c1 vs sc) s -> wpN (qm c1 c2 (ts, sc) comp) (MSpec c1 vs sc) s.
Proof.
  intros HI Hv Hc Hcomp. unfold qm, mget. apply wp_gets.
  destruct (look (mca s c1) (ts, sc)) as [r|] eqn:E.
  - apply wp_ret; [exact HI|]. apply look_In in E. destruct (I_m _ HI _ _ _ E) as (ws & H1 & H2). cbn [fst snd] in *.
    rewrite (hvs_fun _ _ _ _ Hv H1). exact H2.
  - assert (K : forall r s', Inv s' -> ext s s' -> MSpec c1 vs sc r -> wp (do u <- madd c1 (ts, sc) r; ret r) (fun r _ => MSpec c1 vs sc r) s').
    { intros r s' HI' HE Hr. unfold bind, madd, ret, wp. split; [|split; [|exact Hr]].
      - eapply inv_madd; [exact HI'|cbn; eapply hvs_mono; [exact HE|exact Hv]|exact Hr].
      - apply ext_same; reflexivity. }
    destruct c2 as [c2|].
    + apply wp_gets. destruct (look (mca s c2) (ts, sc)) as [r|] eqn:E2.
      * apply look_In in E2. destruct (I_m _ HI _ _ _ E2) as (ws & H1 & H2). cbn [fst snd] in *.
        rewrite <- (hvs_fun _ _ _ _ Hv H1) in H2. eapply wp_bindN; [apply (wpN_ret r (MSpec c1 vs sc)); [exact HI|apply Hc; exact H2]|].
        intros r0 s' HI' HE Hr. apply K; assumption.
      * eapply wp_bindN; [exact Hcomp|]. intros r s' HI' HE Hr. apply K; assumption.
    + unfold bind at 1, ret at 1. eapply wp_bindN; [exact Hcomp|]. intros r s' HI' HE Hr. apply K; assumption.
Qed.
End Proofs.
