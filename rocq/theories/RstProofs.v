(** The Schur complement of AugRestoSystemSolver. *)
From Coq Require Import Reals List Arith Bool Lra Lia.
From Verif Require Import CQModel CQSpec CQVec PdModel PdSpec PdAlg AugModel AugSpec RstModel RstSpec.
Import ListNotations.
Open Scope R_scope.
Local Notation "v .[ i ]" := (nth i v 0) (at level 1, format "v .[ i ]").

Definition sinv (o : option vec) (n : nat) (g : nat -> R) : Prop := match o with Some v => vec_is v n g | None => n = O end.
Lemma sig_inv_is sg dx n f : (match sg with Some v => length v = n /\ (forall i, f i = v.[i]) | None => forall i, f i = 0 end) ->
  (forall i, (i < n)%nat -> f i + dx <> 0) -> sinv (sig_inv sg dx n) n (fun i => / (f i + dx)).
Proof.
  intros H N. unfold sig_inv. destruct sg as [v|].
  - destruct H as [Hl Hf]. cbn [sinv]. destruct (Req_EM_T dx 0) as [->|].
    + eapply vis_ext; [apply vmap_is; apply (vis_self v n Hl)|]. intros i Hi. cbv beta. rewrite Hf, Rplus_0_r. unfold Rdiv. ring.
    + eapply vis_ext; [apply vmap_is; apply (vis_self v n Hl)|]. intros i Hi. cbv beta. rewrite Hf. reflexivity.
  - destruct (Req_EM_T dx 0) as [->|].
    + cbn. destruct n as [|n]; [reflexivity|]. exfalso. apply (N O ltac:(lia)). rewrite H. ring.
    + cbn. eapply vis_ext; [apply vset_is|]. intros i Hi. cbv beta. rewrite H, Rplus_0_l. unfold Rdiv. ring.
Qed.
Lemma neg_omega_c_is sn sp Dc proto n gn gp : sinv sn n gn -> sinv sp n gp -> olen Dc n -> length proto = n ->
  olen (neg_omega_c sn sp Dc proto) n /\ forall i, (i < n)%nat -> dv (neg_omega_c sn sp Dc proto) i = - gn i - gp i + dv Dc i.
Proof.
  intros Hn Hp HD Hl.
  assert (A : forall f1 v1 f2 v2 h1 h2, vec_is v1 n h1 -> vec_is v2 n h2 -> vec_is (add_two f1 v1 f2 v2 0 proto) n (fun i => f1 * h1 i + f2 * h2 i)).
  { intros f1 v1 f2 v2 h1 h2 V1 V2. eapply vis_ext; [apply add_two_is; [exact V1|exact V2|apply vis_self; exact Hl]|]. intros i _. cbv beta. ring. }
  pose proof (vis_self proto n Hl) as Hs.
  assert (B : forall r h, vec_is r n h -> olen (Some (match Dc with Some D => axpy 1 D r | None => r end)) n /\
      forall i, (i < n)%nat -> dv (Some (match Dc with Some D => axpy 1 D r | None => r end)) i = h i + dv Dc i).
  { intros r h Hr. destruct Dc as [D|].
    - pose proof (axpy_is 1 D r n _ _ (vis_self D n HD) Hr) as [L E]. split; [exact L|]. intros i Hi. cbn [dv]. rewrite E by exact Hi. ring.
    - destruct Hr as [L E]. split; [exact L|]. intros i Hi. cbn [dv]. rewrite E by exact Hi. ring. }
  unfold neg_omega_c. destruct sn as [vn|], sp as [vp|]; cbn [sinv] in Hn, Hp;
    try (pose proof (B _ _ (A (-1) vn (-1) vp _ _ Hn Hp)) as [L E]; destruct Dc; split; auto; intros i Hi; rewrite E by exact Hi; ring).
  - subst n. destruct (B _ _ (A (-1) vn 0 proto _ _ Hn Hs)) as [L _]. destruct Dc; (split; [exact L|intros i Hi; lia]).
  - subst n. destruct (B _ _ (A 0 proto (-1) vp _ _ Hs Hp)) as [L _]. destruct Dc; (split; [exact L|intros i Hi; lia]).
  - subst n. destruct Dc as [D|]; [|split; [exact Logic.I|intros i Hi; lia]].
    destruct (B _ _ (A 0 proto 0 proto _ _ Hs Hs)) as [L _]. split; [exact L|intros i Hi; lia].
Qed.
Lemma neg_omega_d_is sn sp proto n gn gp : sinv sn n gn -> sinv sp n gp -> length proto = n ->
  olen (neg_omega_d (Some 1) sn (Some (-1)) sp None proto) n /\
  forall i, (i < n)%nat -> dv (neg_omega_d (Some 1) sn (Some (-1)) sp None proto) i = - gn i - gp i.
Proof.
  intros Hn Hp Hl. unfold neg_omega_d. assert (H0 : vec_is (vset (dim proto) 0) n (fun _ => 0)) by (unfold dim; rewrite Hl; apply vset_is).
  destruct sn as [vn|], sp as [vp|]; cbn [sinv idm] in *.
  - pose proof (axpy_is (1 * -1) vp _ n _ _ Hp (axpy_is (-1 * 1) vn _ n _ _ Hn H0)) as [L E]. split; [exact L|].
    intros i Hi. cbn [dv]. rewrite E by exact Hi. ring.
  - pose proof (axpy_is (-1 * 1) vn _ n _ _ Hn H0) as [L E]. split; [exact L|intros i Hi; lia].
  - pose proof (axpy_is (1 * -1) vp _ n _ _ Hp H0) as [L E]. split; [exact L|intros i Hi; lia].
  - split; [exact Logic.I|intros i Hi; lia].
Qed.
Lemma rhs_c_is b sn bn sp bp n gn gp : sinv sn n gn -> sinv sp n gp -> length b = n -> length bn = n -> length bp = n ->
  vec_is (rhs_c b sn bn sp bp) n (fun i => b.[i] - gn i * bn.[i] + gp i * bp.[i]).
Proof.
  intros Hn Hp L1 L2 L3. unfold rhs_c. pose proof (vis_self b n L1) as B. pose proof (vis_self bn n L2) as Bn. pose proof (vis_self bp n L3) as Bp.
  destruct sn as [vn|], sp as [vp|]; cbn [sinv] in *.
  - eapply vis_ext; [apply axpy_is; [apply emul_is; [exact Hp|exact Bp]|apply axpy_is; [apply emul_is; [exact Hn|exact Bn]|exact B]]|]. intros i _. cbv beta. ring.
  - pose proof (axpy_is (-1) _ _ n _ _ (emul_is _ _ n _ _ Hn Bn) B) as [L E]. split; [exact L|intros; lia].
  - pose proof (axpy_is 1 _ _ n _ _ (emul_is _ _ n _ _ Hp Bp) B) as [L E]. split; [exact L|intros; lia].
  - split; [exact L1|intros; lia].
Qed.
Lemma rhs_d_is b sn bn sp bp n gn gp : sinv sn n gn -> sinv sp n gp -> length b = n -> length bn = n -> length bp = n ->
  vec_is (rhs_d b sn bn (Some 1) sp bp (Some (-1))) n (fun i => b.[i] - gn i * bn.[i] + gp i * bp.[i]).
Proof.
  intros Hn Hp L1 L2 L3. unfold rhs_d, idm. pose proof (vis_self b n L1) as B. pose proof (vis_self bn n L2) as Bn. pose proof (vis_self bp n L3) as Bp.
  destruct sn as [vn|], sp as [vp|]; cbn [sinv] in *.
  - eapply vis_ext; [apply axpy_is; [apply emul_is; [exact Hp|exact Bp]|apply axpy_is; [apply emul_is; [exact Hn|exact Bn]|exact B]]|]. intros i _. cbv beta. ring.
  - pose proof (axpy_is (-1 * 1) _ _ n _ _ (emul_is _ _ n _ _ Hn Bn) B) as [L E]. split; [exact L|intros; lia].
  - pose proof (axpy_is (-1 * -1) _ _ n _ _ (emul_is _ _ n _ _ Hp Bp) B) as [L E]. split; [exact L|intros; lia].
  - split; [exact L1|intros; lia].
Qed.
Lemma dx_plus_is D f w n : olen D n -> length w = n -> vec_is (dx_plus D f w) n (fun i => f * w.[i] + dv D i).
Proof.
  intros HD Hw. unfold dx_plus. pose proof (vis_self w n Hw) as W. destruct D as [v|]; cbn [olen dv] in *.
  - eapply vis_ext; [apply add_two_is; [exact W|apply (vis_self v n HD)|exact W]|]. intros i _. cbv beta. ring.
  - eapply vis_ext; [apply add_two_is; [exact W|exact W|exact W]|]. intros i _. cbv beta. ring.
Qed.

Section Schur.
Variables (nx nd nc : nat) (q : rarg) (b : rav).
Hypotheses (Q : rarg_ok nx nd nc q) (B : rav_ok nx nd nc b) (RG : regular nd nc q).
Notation snc := (fst (fst (fst (sigmas q b)))).
Notation spc := (snd (fst (fst (sigmas q b)))).
Notation snd_ := (snd (fst (sigmas q b))).
Notation spd := (snd (sigmas q b)).
Definition gi (g : rv -> vec) (i : nat) : R := / (dvr (q_Dx q) g i + q_dx q).

Lemma sig_all : sinv snc nc (gi r_nc) /\ sinv spc nc (gi r_pc) /\ sinv snd_ nd (gi r_nd) /\ sinv spd nd (gi r_pd).
Proof.
  destruct B as ((B1 & B2 & B3 & B4 & B5) & _). pose proof (b_Dx _ _ _ _ Q) as D. destruct RG as [R1 R2].
  assert (H : forall g n m, m = n -> (forall v, rv_ok nx nd nc v -> length (g v) = n) -> (forall i, (i < n)%nat -> dvr (q_Dx q) g i + q_dx q <> 0) ->
     sinv (sig_inv (match q_Dx q with Some D => Some (g D) | None => None end) (q_dx q) m) n (gi g)).
  { intros g n m -> Hg Hr. apply (sig_inv_is _ _ n (dvr (q_Dx q) g)); [|exact Hr]. destruct (q_Dx q) as [v|]; cbn [dvr].
    - split; [apply Hg; exact D|reflexivity].
    - reflexivity. }
  unfold sigmas. cbn [fst snd]. splits; apply H; try assumption; try (intros v Hv; apply Hv); intros i Hi; first [apply R1|apply R2]; exact Hi.
Qed.
Lemma sigmas_eta : sigmas q b = (snc, spc, snd_, spd).
Proof. destruct (sigmas q b) as [[[? ?] ?] ?]. reflexivity. Qed.

Hypothesis ND : q_Dd q = None.
Lemma small_arg_ok : arg_ok nx nd nc (small_arg q b).
Proof.
  destruct sig_all as (S1 & S2 & S3 & S4). destruct B as ((B1 & B2 & B3 & B4 & B5) & B6 & B7 & B8).
  destruct (neg_omega_c_is _ _ (q_Dc q) (ra_c b) nc _ _ S1 S2 (b_Dc _ _ _ _ Q) B7) as [Lc _].
  destruct (neg_omega_d_is _ _ (ra_d b) nd _ _ S3 S4 B8) as [Ld _].
  destruct (b_Jdf _ _ _ _ Q) as (_ & _ & F1 & F2).
  pose proof (b_W _ _ _ _ Q) as W. pose proof (b_Dx _ _ _ _ Q) as D.
  assert (D0 : olen (match q_Dx q with Some D => Some (r_x D) | None => None end) nx) by (destruct (q_Dx q); [apply D|exact Logic.I]).
  unfold small_arg. rewrite sigmas_eta, F1, F2, ND. destruct (q_W q) as [f0 h f1 w|h].
  - destruct W as (W1 & W2 & W3). constructor; cbn [g_W g_Jc g_Jd g_Dx g_Ds g_Dc g_Dd]; try tauto; try apply Q.
    splits; [apply (dx_plus_is _ f1 w nx D0 W3)|apply Q|exact Lc|exact Ld].
  - destruct W as (W1 & W2). constructor; cbn [g_W g_Jc g_Jd g_Dx g_Ds g_Dc g_Dd]; try tauto; try apply Q.
    splits; [exact D0|apply Q|exact Lc|exact Ld].
Qed.
Lemma small_rhs_is : rows_are nx nd nc (small_rhs q b) (fun i => (r_x (ra_x b)).[i]) (fun i => (ra_s b).[i])
  (fun i => (ra_c b).[i] - gi r_nc i * (r_nc (ra_x b)).[i] + gi r_pc i * (r_pc (ra_x b)).[i])
  (fun i => (ra_d b).[i] - gi r_nd i * (r_nd (ra_x b)).[i] + gi r_pd i * (r_pd (ra_x b)).[i]).
Proof.
  destruct sig_all as (S1 & S2 & S3 & S4). destruct B as ((B1 & B2 & B3 & B4 & B5) & B6 & B7 & B8). destruct (b_Jdf _ _ _ _ Q) as (_ & _ & F1 & F2).
  unfold small_rhs, rows_are. rewrite sigmas_eta, F1, F2. cbn [ax as_ ac ad]. splits.
  - apply vis_self; exact B1. - apply vis_self; exact B6. - apply rhs_c_is; assumption. - apply rhs_d_is; assumption.
Qed.
Definition back_parts (a : av) (A : rav) : Prop :=
  r_x (ra_x A) = ax a /\ ra_s A = as_ a /\ ra_c A = ac a /\ ra_d A = ad a /\
  vec_is (r_nc (ra_x A)) nc (fun i => gi r_nc i * ((r_nc (ra_x b)).[i] - (ac a).[i])) /\ vec_is (r_pc (ra_x A)) nc (fun i => gi r_pc i * ((r_pc (ra_x b)).[i] + (ac a).[i])) /\
  vec_is (r_nd (ra_x A)) nd (fun i => gi r_nd i * ((r_nd (ra_x b)).[i] - (ad a).[i])) /\ vec_is (r_pd (ra_x A)) nd (fun i => gi r_pd i * ((r_pd (ra_x b)).[i] + (ad a).[i])).
Lemma back_is a : av_ok nx nd nc a -> back_parts a (back q b a).
Proof.
  intros (A1 & A2 & A3 & A4). destruct sig_all as (S1 & S2 & S3 & S4). destruct B as ((B1 & B2 & B3 & B4 & B5) & B6 & B7 & B8). destruct (b_Jdf _ _ _ _ Q) as (_ & _ & F1 & F2).
  unfold back, back_parts. rewrite sigmas_eta, F1, F2. cbn [ra_x ra_s ra_c ra_d r_x r_nc r_pc r_nd r_pd idm]. splits; try reflexivity.
  - destruct snc as [v|]; cbn [sinv] in S1; [|subst nc; split; [unfold vset; rewrite mk_len; exact B2|intros; lia]].
    eapply vis_ext; [apply emul_is; [apply add_two_is; [apply (vis_self _ _ B2)|apply (vis_self _ _ A3)|apply (vis_self _ _ B2)]|exact S1]|]. intros i _. cbv beta. ring.
  - destruct spc as [v|]; cbn [sinv] in S2; [|subst nc; split; [unfold vset; rewrite mk_len; exact B3|intros; lia]].
    eapply vis_ext; [apply emul_is; [apply add_two_is; [apply (vis_self _ _ B3)|apply (vis_self _ _ A3)|apply (vis_self _ _ B3)]|exact S2]|]. intros i _. cbv beta. ring.
  - assert (Z0 : vec_is (vset (dim (r_nd (ra_x b))) 0) nd (fun _ => 0)) by (unfold dim; rewrite B4; apply vset_is).
    destruct snd_ as [v|]; cbn [sinv] in S3; [|subst nd; split; [apply Z0|intros; lia]].
    eapply vis_ext; [apply emul_is; [apply axpy_is; [apply (vis_self _ _ B4)|apply axpy_is; [apply (vis_self _ _ A4)|exact Z0]]|exact S3]|]. intros i _. cbv beta. ring.
  - assert (Z0 : vec_is (vset (dim (r_pd (ra_x b))) 0) nd (fun _ => 0)) by (unfold dim; rewrite B5; apply vset_is).
    destruct spd as [v|]; cbn [sinv] in S4; [|subst nd; split; [apply Z0|intros; lia]].
    eapply vis_ext; [apply emul_is; [apply axpy_is; [apply (vis_self _ _ B5)|apply axpy_is; [apply (vis_self _ _ A4)|exact Z0]]|exact S4]|]. intros i _. cbv beta. ring.
Qed.

(** rows of the small system in terms of the big one *)
Lemma small_row_c a i : (i < nc)%nat -> row_c (small_arg q b) a i = Jv (j_0 (q_Jc q)) (ax a) i + (- gi r_nc i - gi r_pc i + dv (q_Dc q) i - q_dc q) * (ac a).[i].
Proof.
  intros Hi. destruct sig_all as (S1 & S2 & S3 & S4). destruct B as (_ & _ & B7 & _).
  destruct (neg_omega_c_is _ _ (q_Dc q) (ra_c b) nc _ _ S1 S2 (b_Dc _ _ _ _ Q) B7) as [_ E].
  unfold row_c, small_arg. rewrite sigmas_eta. destruct (q_W q); cbn [g_Jc g_Dc g_dc]; rewrite E by exact Hi; ring.
Qed.
Lemma small_row_d a i : (i < nd)%nat -> row_d (small_arg q b) a i = Jv (j_0 (q_Jd q)) (ax a) i - (as_ a).[i] + (- gi r_nd i - gi r_pd i - q_dd q) * (ad a).[i].
Proof.
  intros Hi. destruct sig_all as (S1 & S2 & S3 & S4). destruct B as (_ & _ & _ & B8). destruct (b_Jdf _ _ _ _ Q) as (_ & _ & F1 & F2).
  destruct (neg_omega_d_is _ _ (ra_d b) nd _ _ S3 S4 B8) as [_ E].
  unfold row_d, small_arg. rewrite sigmas_eta, F1, F2, ND. destruct (q_W q); cbn [g_Jd g_Dd g_dd]; rewrite E by exact Hi; ring.
Qed.
Lemma small_row_s a i : row_s (small_arg q b) a i = (dv (q_Ds q) i + q_ds q) * (as_ a).[i] - (ad a).[i].
Proof. unfold row_s, small_arg. rewrite sigmas_eta. destruct (q_W q); reflexivity. Qed.
Hypothesis WF : q_wf q = 1 \/ is_low (q_W q).
Lemma small_row_x a i : (i < nx)%nat -> row_x (small_arg q b) a i =
  q_wf q * Wx (q_W q) (ax a) i + (dvr (q_Dx q) r_x i + q_dx q) * (ax a).[i] + JTv (j_0 (q_Jc q)) (ac a) i + JTv (j_0 (q_Jd q)) (ad a) i.
Proof.
  intros Hi. pose proof (b_W _ _ _ _ Q) as W. pose proof (b_Dx _ _ _ _ Q) as D.
  assert (D0 : olen (match q_Dx q with Some D => Some (r_x D) | None => None end) nx) by (destruct (q_Dx q); [apply D|exact Logic.I]).
  assert (E0 : dv (match q_Dx q with Some D => Some (r_x D) | None => None end) i = dvr (q_Dx q) r_x i) by (destruct (q_Dx q); reflexivity).
  unfold row_x, small_arg, wv. rewrite sigmas_eta. destruct (q_W q) as [f0 h f1 w|h]; cbn [g_W g_wf g_Dx g_dx g_Jc g_Jd Wx is_low] in *.
  - destruct W as (_ & _ & W3). destruct WF as [->|[]]. destruct (dx_plus_is _ f1 w nx D0 W3) as [_ E]. cbn [dv]. rewrite E by exact Hi. rewrite E0. ring.
  - rewrite E0. ring.
Qed.
Lemma gi_inv g i : dvr (q_Dx q) g i + q_dx q <> 0 -> (dvr (q_Dx q) g i + q_dx q) * gi g i = 1.
Proof. intros H. unfold gi. field. exact H. Qed.

Lemma schur_forward a : solves_arg nx nd nc (small_arg q b) (small_rhs q b) a -> solves_resto nx nd nc q b (back q b a).
Proof.
  intros (Ha & (X & S & C & D)). destruct (back_is a Ha) as (E1 & E2 & E3 & E4 & [N1 N2] & [P1 P2] & [M1 M2] & [O1 O2]).
  destruct small_rhs_is as ([X1 X2] & [S1 S2] & [C1 C2] & [D1 D2]). destruct B as ((B1 & B2 & B3 & B4 & B5) & B6 & B7 & B8). destruct RG as [R1 R2].
  destruct Ha as (A1 & A2 & A3 & A4).
  assert (OKA : rav_ok nx nd nc (back q b a)).
  { unfold rav_ok, rv_ok. rewrite E1, E2, E3, E4. splits; assumption. }
  unfold solves_resto, rrow_x, rrow_nc, rrow_pc, rrow_nd, rrow_pd, rrow_s, rrow_c, rrow_d. rewrite E1, E2, E3, E4. splits; [exact OKA|..].
  - split; [exact B1|]. intros i Hi. rewrite <- X2 by exact Hi. destruct X as [_ X]. rewrite X by exact Hi. rewrite small_row_x by exact Hi. reflexivity.
  - split; [exact B2|]. intros i Hi. rewrite N2 by exact Hi. rewrite <- Rmult_assoc, gi_inv by (apply R1; exact Hi). ring.
  - split; [exact B3|]. intros i Hi. rewrite P2 by exact Hi. rewrite <- Rmult_assoc, gi_inv by (apply R1; exact Hi). ring.
  - split; [exact B4|]. intros i Hi. rewrite M2 by exact Hi. rewrite <- Rmult_assoc, gi_inv by (apply R2; exact Hi). ring.
  - split; [exact B5|]. intros i Hi. rewrite O2 by exact Hi. rewrite <- Rmult_assoc, gi_inv by (apply R2; exact Hi). ring.
  - split; [exact B6|]. intros i Hi. rewrite <- S2 by exact Hi. destruct S as [_ S]. rewrite S by exact Hi. apply small_row_s.
  - split; [exact B7|]. intros i Hi. destruct C as [_ C]. specialize (C i Hi). rewrite small_row_c in C by exact Hi. rewrite C2 in C by exact Hi.
    rewrite N2, P2 by exact Hi. lra.
  - split; [exact B8|]. intros i Hi. destruct D as [_ D]. specialize (D i Hi). rewrite small_row_d in D by exact Hi. rewrite D2 in D by exact Hi.
    rewrite M2, O2 by exact Hi. rewrite ND. cbn [dv]. lra.
Qed.
Lemma schur_backward A : solves_resto nx nd nc q b A ->
  let a := AV (r_x (ra_x A)) (ra_s A) (ra_c A) (ra_d A) in solves_arg nx nd nc (small_arg q b) (small_rhs q b) a /\ back_parts a A.
Proof.
  intros (((K1 & K2 & K3 & K4 & K5) & K6 & K7 & K8) & [X1 X2] & [N1 N2] & [P1 P2] & [M1 M2] & [O1 O2] & [S1 S2] & [C1 C2] & [D1 D2]).
  destruct RG as [R1 R2]. cbv zeta.
  assert (BP : back_parts (AV (r_x (ra_x A)) (ra_s A) (ra_c A) (ra_d A)) A).
  { unfold back_parts. cbn [ax as_ ac ad]. splits; try reflexivity.
    - split; [exact K2|]. intros i Hi. rewrite N2 by exact Hi. unfold rrow_nc. pose proof (gi_inv r_nc i (proj1 (R1 i Hi))) as G. 
      replace (gi r_nc i * ((dvr (q_Dx q) r_nc i + q_dx q) * (r_nc (ra_x A)).[i] + (ra_c A).[i] - (ra_c A).[i])) with (((dvr (q_Dx q) r_nc i + q_dx q) * gi r_nc i) * (r_nc (ra_x A)).[i]) by ring. rewrite G. ring.
    - split; [exact K3|]. intros i Hi. rewrite P2 by exact Hi. unfold rrow_pc. pose proof (gi_inv r_pc i (proj2 (R1 i Hi))) as G.
      replace (gi r_pc i * ((dvr (q_Dx q) r_pc i + q_dx q) * (r_pc (ra_x A)).[i] - (ra_c A).[i] + (ra_c A).[i])) with (((dvr (q_Dx q) r_pc i + q_dx q) * gi r_pc i) * (r_pc (ra_x A)).[i]) by ring. rewrite G. ring.
    - split; [exact K4|]. intros i Hi. rewrite M2 by exact Hi. unfold rrow_nd. pose proof (gi_inv r_nd i (proj1 (R2 i Hi))) as G.
      replace (gi r_nd i * ((dvr (q_Dx q) r_nd i + q_dx q) * (r_nd (ra_x A)).[i] + (ra_d A).[i] - (ra_d A).[i])) with (((dvr (q_Dx q) r_nd i + q_dx q) * gi r_nd i) * (r_nd (ra_x A)).[i]) by ring. rewrite G. ring.
    - split; [exact K5|]. intros i Hi. rewrite O2 by exact Hi. unfold rrow_pd. pose proof (gi_inv r_pd i (proj2 (R2 i Hi))) as G.
      replace (gi r_pd i * ((dvr (q_Dx q) r_pd i + q_dx q) * (r_pd (ra_x A)).[i] - (ra_d A).[i] + (ra_d A).[i])) with (((dvr (q_Dx q) r_pd i + q_dx q) * gi r_pd i) * (r_pd (ra_x A)).[i]) by ring. rewrite G. ring. }
  split; [|exact BP]. destruct BP as (_ & _ & _ & _ & [_ N3] & [_ P3] & [_ M3] & [_ O3]). cbn [ac ad] in *.
  destruct small_rhs_is as (VX & VS & VC & VD). split; [unfold av_ok; cbn; splits; assumption|]. unfold rows_are. cbn [ax as_ ac ad]. splits.
  - eapply vis_ext; [exact VX|]. intros i Hi. cbv beta. rewrite small_row_x by exact Hi. cbn [ax ac ad]. apply X2. exact Hi.
  - eapply vis_ext; [exact VS|]. intros i Hi. cbv beta. rewrite small_row_s. cbn [as_ ad]. apply S2. exact Hi.
  - eapply vis_ext; [exact VC|]. intros i Hi. cbv beta. rewrite small_row_c by exact Hi. cbn [ax ac]. rewrite (C2 i Hi). unfold rrow_c.
    rewrite N3, P3 by exact Hi. ring.
  - eapply vis_ext; [exact VD|]. intros i Hi. cbv beta. rewrite small_row_d by exact Hi. cbn [ax as_ ad]. rewrite (D2 i Hi). unfold rrow_d.
    rewrite M3, O3 by exact Hi. rewrite ND. cbn [dv]. ring.
Qed.
End Schur.
