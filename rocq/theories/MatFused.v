(** The fused operations AddMSinvZ and SinvBlrmZMTdBr. *)
From Coq Require Import List Bool Arith Reals Lia Lra.
From Flocq Require Import Raux.
From Verif Require Import Num VecModel VecSpec VecProofs VecLift VecReal VecRed VecFresh ExpModel ExpSpec ExpProofs MatModel MatSpec MatVec MatLeaf MatProofs.
Import ListNotations.
Local Open Scope R_scope.

Section Fused.
Variable lg : R -> R.
Notation OR := (R_ops lg).
Variables (junk : nat -> list R) (jscal : R).
Hypothesis Hj : forall n, length (junk n) = n.
Notation tgt := (target OR).

(** every block (i, j) adds its contribution to component i *)
Lemma blocks_loop nby sy py nbx px base alpha (E : nat -> nat -> nat -> nat -> R) (g : nat -> nat -> R) (F : nat -> nat -> vec R -> option (vec R)) y0 :
  splits nby sy py -> vrep sy base y0 ->
  (forall i j y F', (i < nby)%nat -> (j < nbx)%nat -> vrep sy (blk py F') y ->
     exists y2, F i j y = Some y2 /\
       vrep sy (blk py (fun b r => if (b =? i)%nat then F' i r + alpha * sum_to (sdim (nth j px sp0)) (fun q => E i j r q * g j q) else F' b r)) y2) ->
  exists y', loop nby (fun i y => loop nbx (fun j y => F i j y) y) y0 = Some y' /\
    vrep sy (blk py (fun b r => base (off py b + r)%nat + alpha * sum_to nbx (fun l => sum_to (sdim (nth l px sp0)) (fun q => E b l r q * g l q)))) y'.
Proof.
  intros SY VS STEP.
  set (SB := fun b r J => sum_to J (fun l => sum_to (sdim (nth l px sp0)) (fun q => E b l r q * g l q))).
  set (INV := fun i j y' => vrep sy (blk py (fun b r => base (off py b + r)%nat + alpha * (if (b <? i)%nat then SB b r nbx else if (b =? i)%nat then SB b r j else 0))) y').
  destruct (loop_ind nby (fun i y => loop nbx (fun j y => F i j y) y) (fun i => INV i 0%nat) y0) as (y' & EQ & V).
  - unfold INV. eapply blk_ext; [exact SY| |eapply blk_of; [exact SY|exact VS]]. intros b r Hb Hr. cbn beta.
    unfold SB. destruct (b =? 0)%nat; cbn [sum_to]; destruct (Nat.ltb_spec b 0); try lia; ring.
  - intros i b Hi Vb. destruct (loop_ind nbx (fun j y => F i j y) (INV i) b Vb) as (b' & EQ & V).
    + intros j y1 Hjx V1. destruct (STEP i j y1 _ Hi Hjx V1) as (y2 & E2 & V2). exists y2. split; [exact E2|].
      unfold INV. eapply blk_ext; [exact SY| |exact V2]. intros b0 r Hb0 Hr. cbn beta.
      destruct (Nat.eqb_spec b0 i) as [->|N]; [|reflexivity]. rewrite Nat.ltb_irrefl, Nat.eqb_refl. unfold SB. cbn [sum_to]. ring.
    + exists b'. split; [exact EQ|]. unfold INV in *. eapply blk_ext; [exact SY| |exact V]. intros b0 r Hb0 Hr. cbn beta. f_equal. f_equal.
      destruct (Nat.ltb_spec b0 i), (Nat.ltb_spec b0 (S i)), (Nat.eqb_spec b0 i), (Nat.eqb_spec b0 (S i)); try lia; reflexivity.
  - exists y'. split; [exact EQ|]. unfold INV in V. eapply blk_ext; [exact SY| |exact V]. intros b r Hb Hr. cbn beta.
    apply Nat.ltb_lt in Hb. rewrite Hb. reflexivity.
Qed.

Lemma matvec_blocks brs bcs sp (c : nat -> nat -> option (mat R)) srs scs sr sc (tr : bool) fx b r :
  splits (length brs) sr srs -> splits (length bcs) sc scs -> map sdim srs = brs -> map sdim scs = bcs ->
  let px := if tr then srs else scs in let py := if tr then scs else srs in
  (b < length py)%nat -> (r < sdim (nth b py sp0))%nat ->
  matvec (Compound brs bcs sp c) tr (sdim (if tr then sr else sc)) fx (off py b + r) =
  sum_to (length px) (fun l => sum_to (sdim (nth l px sp0)) (fun q =>
    match (if tr then c l b else c b l) with Some m => if tr then den m q r else den m r q | None => 0 end * fx (off px l + q)%nat)).
Proof.
  intros S1 S2 D1 D2 px py Hb Hr. subst px py.
  assert (SD : sdim (if tr then sr else sc) = sdim (SC (if tr then srs else scs))) by (destruct tr; eapply splits_dim; eauto).
  unfold matvec. rewrite SD, sum_blocks. apply sum_to_ext. intros l Hl. apply sum_to_ext. intros q Hq. f_equal.
  rewrite <- D1, <- D2. destruct tr; cbn [den]; rewrite !locate_off by auto; reflexivity.
Qed.

(** ** AddMSinvZ *)
Lemma dflt_addmsinvz_ok m sr sc alpha s z x fs fz fx : conf m sr sc -> vrep sc fs s -> vrep sc fz z -> vrep sr fx x ->
  exists x', dflt_addmsinvz OR junk jscal m alpha s z x = Some x' /\ vrep sr (fun i => fx i + alpha * matvec m false (sdim sc) (fun j => fz j / fs j) i) x'.
Proof.
  intros C Vs Vz Vx. unfold dflt_addmsinvz.
  pose proof (addquot_r lg junk Hj 1 0 sc fz fs (fun _ => 0) z s (v_makenew OR jscal s) Vz Vs (tgt_makenew lg jscal _ _ (vrep_tgt lg _ _ _ Vs)) ltac:(lra)) as VQ.
  destruct (mult_ok lg junk jscal Hj m sr sc false alpha 1 _ x _ fx C VQ (vrep_tgt lg _ _ _ Vx) (fun _ => Vx)) as (x' & E & V).
  exists x'. split; [exact E|]. eapply vrep_ext; [|exact V]. intros i _. cbn beta. unfold matvec. rewrite Rmult_1_l. f_equal. f_equal.
  apply sum_to_ext. intros j _. f_equal. unfold Rdiv. ring.
Qed.

Lemma addmsinvz_ok m : forall sr sc alpha s z x fs fz fx, unit_ident m -> conf m sr sc -> vrep sc fs s -> vrep sc fz z -> vrep sr fx x ->
  exists x', addmsinvz OR junk jscal m alpha s z x = Some x' /\ vrep sr (fun i => fx i + alpha * matvec m false (sdim sc) (fun j => fz j / fs j) i) x'.
Proof.
  induction m as [| | |n f| | |nr pos| | | | |brs bcs sp c IH| | | | |] using mat_ind'; intros sr sc alpha s z x fs fz fx UI C Vs Vz Vx;
    try (apply dflt_addmsinvz_ok; auto; fail).
  - (* Ident *)
    cbn [unit_ident] in UI. cbn [conf] in C. destruct C as [<- _]. cbn [addmsinvz]. eexists. split; [reflexivity|].
    eapply vrep_ext; [|apply (addquot_r lg junk Hj alpha 1 sr fz fs fx z s x Vz Vs (vrep_tgt lg _ _ _ Vx) (fun _ => Vx))].
    intros i Hi. cbn beta. unfold matvec. cbn [den]. rewrite (sum_diag (sdim sr) (fun _ => f)) by auto. rewrite UI. unfold Rdiv. ring.
  - (* Expan *)
    cbn [conf] in C. destruct C as (-> & -> & HP). apply vrep_dense in Vs. destruct Vs as (ds & -> & Ds & Vs).
    apply vrep_dense in Vz. destruct Vz as (dz & -> & Dz & Vz). apply vrep_dense in Vx. destruct Vx as (dx & -> & Dx & Vx).
    cbn [addmsinvz]. eexists. split; [reflexivity|].
    destruct (@addmsinvz_real lg nr pos junk jscal alpha ds dz dx HP Hj Ds Dz Dx) as (A & B & Cc).
    apply dense_vrep; [exact A|]. intros j Hj'. unfold matvec. cbn [den sdim].
    destruct (in_dec Nat.eq_dec j pos) as [I|N].
    + destruct (In_nth _ _ 0%nat I) as (i & Hi & E). subst j. rewrite B by auto. rewrite Vx by auto. f_equal. f_equal.
      rewrite (@sum_to_one _ _ i Hi).
      * unfold entry. rewrite Nat.eqb_refl, Vz, Vs by auto. ring.
      * intros k Hk N. unfold entry. destruct (Nat.eqb_spec (nth k pos 0%nat) (nth i pos 0%nat)) as [E|]; [|ring].
        destruct HP as [ND _]. exfalso. apply N. apply (proj1 (NoDup_nth pos 0%nat) ND k i Hk Hi E).
    + rewrite Cc by auto. rewrite Vx by auto. rewrite sum_to_zero; [ring|]. intros k Hk. unfold entry.
      destruct (Nat.eqb_spec (nth k pos 0%nat) j) as [E|]; [|ring]. exfalso. apply N. rewrite <- E. apply nth_In; auto.
  - (* Compound *)
    cbn [unit_ident] in UI. cbn [conf] in C. destruct C as (srs & scs & S1 & S2 & D1 & D2 & C). cbn [addmsinvz].
    set (E := fun b l r q => match c b l with Some m => den m r q | None => 0 end).
    edestruct (blocks_loop (length brs) sr srs (length bcs) scs fx alpha E (fun l q => fz (off scs l + q)%nat / fs (off scs l + q)%nat)) as (x' & EQ & V); [exact S1|exact Vx| |].
    2:{ exists x'. split; [exact EQ|]. eapply vrep_ext; [|exact V]. intros i Hi. rewrite (splits_dim _ _ _ S1) in Hi.
        destruct (locate_inv srs i Hi) as (b & r & B & Rr & ->). rewrite blk_off by auto. f_equal. f_equal.
        rewrite (matvec_blocks brs bcs sp c srs scs sr sc false (fun j => fz j / fs j) b r S1 S2 D1 D2 B Rr). rewrite (splits_len _ _ _ S2). reflexivity. }
    intros i j y1 F' Hi Hjx V1. cbn beta. specialize (C i j Hi Hjx). specialize (IH i j). specialize (UI i j).
    destruct (c i j) as [mm|] eqn:EB.
    + destruct C as [C1 C2].
      assert (DD : diagonal (length brs) (length bcs) sp && negb (i =? j)%nat = false).
      { destruct (diagonal (length brs) (length bcs) sp) eqn:DG; [|reflexivity]. destruct (Nat.eqb_spec i j); [reflexivity|].
        rewrite (diagonal_off _ _ _ i j DG Hi Hjx) in C1 by auto. discriminate. }
      rewrite DD.
      destruct (part_r false _ _ _ _ _ j S2 (blk_of _ _ _ _ _ S2 Vs) Hjx) as (sj & ES & VSj). rewrite ES. cbn [obind].
      destruct (part_r false _ _ _ _ _ j S2 (blk_of _ _ _ _ _ S2 Vz) Hjx) as (zj & EZ & VZj). rewrite EZ. cbn [obind].
      destruct (on_part_r _ _ _ F' (fun r => F' i r + alpha * sum_to (sdim (nth j scs sp0)) (fun q => E i j r q * (fz (off scs j + q)%nat / fs (off scs j + q)%nat)))
                  (fun xi => addmsinvz OR junk jscal mm alpha sj zj xi) _ i S1 V1 Hi) as (y2 & EY & V2).
      { intros vk Vk. destruct (IH _ _ alpha sj zj vk _ _ _ UI C2 VSj VZj Vk) as (vk' & EM & VM). exists vk'. split; [exact EM|].
        eapply vrep_ext; [|exact VM]. intros r Hr. cbn beta. f_equal. f_equal. unfold matvec, E. rewrite EB. reflexivity. }
      rewrite EY. exists y2. split; [reflexivity|]. eapply blk_ext; [exact S1| |exact V2]. intros b r Hb Hr. cbn beta. destruct (b =? i)%nat; reflexivity.
    + assert (DD : diagonal (length brs) (length bcs) sp && (i =? j)%nat = false).
      { destruct (Nat.eqb_spec i j); [rewrite C by auto; reflexivity|apply andb_false_r]. }
      rewrite DD. exists y1. split; [reflexivity|]. eapply blk_ext; [exact S1| |exact V1]. intros b r Hb Hr. cbn beta.
      destruct (Nat.eqb_spec b i) as [->|]; [|reflexivity]. rewrite sum_to_zero; [ring|]. intros q _. unfold E. rewrite EB. ring.
Qed.

(** ** SinvBlrmZMTdBr *)
(** the first k components have been written, the others are still targets *)
Definition st (nb : nat) (s : space) (parts : list space) (k : nat) (F : nat -> nat -> R) (v : vec R) : Prop :=
  (exists l, v = Comp l /\ s = SC parts /\ length parts = nb /\ length l = nb /\
     forall b, (b < nb)%nat -> if (b <? k)%nat then vrep (nth b parts sp0) (F b) (nth b l dflt) else tgt (nth b parts sp0) (nth b l dflt)) \/
  (nb = 1%nat /\ parts = [s] /\ (forall l, s = SC l -> length l <> 1%nat) /\ if (0 <? k)%nat then vrep s (F 0%nat) v else tgt s v).
Lemma st_start nb s parts F v : splits nb s parts -> tgt s v -> st nb s parts 0 F v.
Proof.
  intros [[-> L]|(-> & -> & N)] T.
  - left. apply tgt_comp in T. destruct T as (l & -> & Ll & H). exists l. repeat split; auto; try congruence. intros b Hb. simpl. apply H. congruence.
  - right. repeat split; auto.
Qed.
Lemma st_step nb s parts k F f v : st nb s parts k F v -> (k < nb)%nat ->
  (forall vk, tgt (nth k parts sp0) vk -> exists vk', f vk = Some vk' /\ vrep (nth k parts sp0) (F k) vk') ->
  exists v', on_part nb k f v = Some v' /\ st nb s parts (S k) F v'.
Proof.
  intros [(l & -> & -> & L1 & L2 & H)|(-> & -> & N & H)] Hk Hf.
  - pose proof (H k Hk) as Hk'. rewrite Nat.ltb_irrefl in Hk'. destruct (Hf _ Hk') as (vk' & E & V).
    unfold on_part, part, set_part. rewrite L2, Nat.eqb_refl. rewrite (nth_error_nth' l dflt) by lia. cbn [obind]. rewrite E. cbn [obind].
    eexists. split; [reflexivity|]. left. eexists. split; [reflexivity|]. repeat split; auto; [rewrite upd_length; auto|].
    intros b Hb. destruct (Nat.eq_dec b k) as [->|Nb].
    + rewrite nth_upd_same by lia. destruct (Nat.ltb_spec k (S k)); [exact V|lia].
    + rewrite nth_upd_other by auto. specialize (H b Hb). destruct (Nat.ltb_spec b k), (Nat.ltb_spec b (S k)); auto; lia.
  - assert (k = 0%nat) by lia. subst k. cbn [Nat.ltb Nat.leb] in H. cbn [nth] in Hf. destruct (Hf v H) as (v' & E & V). exists v'.
    split; [|right; split; [reflexivity|split; [reflexivity|split; [exact N|exact V]]]].
    unfold on_part. assert (PE : part false 1 0 v = Some v /\ set_part 1 0 v v' = v').
    { destruct v as [n d|l]; [split; reflexivity|]. inversion H as [|ls ? Hl]; subst. assert (NL : length l <> 1%nat).
      { specialize (N _ eq_refl). rewrite <- (F2len _ _ _ Hl). exact N. }
      apply Nat.eqb_neq in NL. unfold part, set_part. rewrite NL. split; reflexivity. }
    destruct PE as [-> ES]. cbn [obind]. rewrite E. cbn [obind]. rewrite ES. reflexivity.
Qed.
Lemma st_end nb s parts F v : st nb s parts nb F v -> vrep s (blk parts F) v.
Proof.
  intros [(l & -> & -> & L1 & L2 & H)|(-> & -> & N & H)].
  - apply vrep_comp. split; [congruence|]. intros k Hk. specialize (H k ltac:(lia)). rewrite <- L1 in H. apply Nat.ltb_lt in Hk as Hk'. rewrite Hk' in H.
    eapply vrep_ext; [|exact H]. intros i Hi. symmetry. apply blk_off; auto.
  - cbn [Nat.ltb Nat.leb] in H. eapply vrep_ext; [|exact H]. intros i Hi. symmetry. apply (blk_off [s] F 0 i); simpl; auto.
Qed.

Lemma dflt_sinv_ok m sr sc alpha s r z d x fs fr fz fd : conf m sr sc -> vrep sc fs s -> vrep sc fr r -> vrep sc fz z -> vrep sr fd d -> tgt sc x ->
  exists x', dflt_sinv OR junk jscal m alpha s r z d x = Some x' /\ vrep sc (fun i => (fr i + alpha * fz i * matvec m true (sdim sr) fd i) / fs i) x'.
Proof.
  intros C Vs Vr Vz Vd Tx. unfold dflt_sinv.
  destruct (mult_ok lg junk jscal Hj m sr sc true alpha 0 d x fd (fun _ => 0) C Vd Tx ltac:(lra)) as (x1 & E & V).
  cbn [R_ops t0]. rewrite E. cbn [obind]. eexists. split; [reflexivity|].
  eapply vrep_ext; [|apply div_r; [exact Vs|apply axpy_r; [exact Vr|apply mul_r; [exact Vz|exact V]]]]. intros i Hi. cbn beta. cbn [R_ops t1]. unfold Rdiv. ring.
Qed.
Lemma filter1 {A} (p : A -> bool) l : NoDup l -> length (filter p l) = 1%nat ->
  exists a, find p l = Some a /\ In a l /\ p a = true /\ forall b, In b l -> b <> a -> p b = false.
Proof.
  induction l as [|a l IH]; simpl; intros ND L; [discriminate|]. inversion ND as [|? ? NI ND']; subst. destruct (p a) eqn:PA.
  - exists a. repeat split; auto. intros b [->|Hb] N; [congruence|]. simpl in L. destruct (p b) eqn:PB; auto.
    assert (In b (filter p l)) by (apply filter_In; auto). destruct (filter p l); [contradiction|simpl in L; lia].
  - destruct (IH ND' L) as (a' & F & I & Pa & U). exists a'. repeat split; auto. intros b [->|Hb] N; auto.
Qed.
Lemma fast_col {A} nr nc (c : nat -> nat -> option A) j :
  forallb (fun j => Nat.eqb (column_blocks nr c j) 1) (seq 0 nc) = true -> (j < nc)%nat ->
  exists b, column_block nr c j = b /\ (b < nr)%nat /\ c b j <> None /\ forall i, (i < nr)%nat -> i <> b -> c i j = None.
Proof.
  intros H Hj'. rewrite forallb_forall in H. specialize (H j ltac:(apply in_seq; lia)). apply Nat.eqb_eq in H. unfold column_blocks in H.
  destruct (filter1 _ _ (seq_NoDup nr 0) H) as (b & F & I & PB & U). exists b. unfold column_block. rewrite F. apply in_seq in I. repeat split; [lia|destruct (c b j); congruence|].
  intros i Hi N. specialize (U i ltac:(apply in_seq; lia) N). destruct (c i j); congruence.
Qed.

Lemma sinv_ok m : forall sr sc alpha s r z d x fs fr fz fd, diag_fits m -> conf m sr sc ->
  vrep sc fs s -> vrep sc fr r -> vrep sc fz z -> vrep sr fd d -> tgt sc x ->
  exists x', sinv OR junk jscal m alpha s r z d x = Some x' /\ vrep sc (fun i => (fr i + alpha * fz i * matvec m true (sdim sr) fd i) / fs i) x'.
Proof.
  induction m as [| |dd0|n f| | |nr pos| rr0 mm0 cc0 IH0 | | | |brs bcs sp c IH| | | | |nn DD0 VV0 UU0 LL0 PP0 rd0 IH0] using mat_ind'; intros sr sc alpha s r z d x fs fr fz fd UI C Vs Vr Vz Vd Tx;
    try (apply dflt_sinv_ok; auto; fail).
  - (* Expan *)
    cbn [conf] in C. destruct C as (-> & -> & HP). apply vrep_dense in Vs. destruct Vs as (ds & -> & Ds & Vs). apply vrep_dense in Vr. destruct Vr as (dr & -> & Dr & Vr).
    apply vrep_dense in Vz. destruct Vz as (dz & -> & Dz & Vz). apply vrep_dense in Vd. destruct Vd as (dd & -> & Dd & Vd). apply tgt_dense in Tx. destruct Tx as (dx & -> & Tx).
    cbn [sinv]. eexists. split; [reflexivity|].
    destruct (@sinv_real lg nr pos junk alpha ds dr dz dd dx HP Ds Dr Dz Dd) as (A & B).
    apply dense_vrep; [exact A|]. intros i Hi. rewrite B by auto. rewrite Vr, Vs, Vz by auto. f_equal. f_equal. f_equal. destruct HP as [_ RG].
    unfold matvec. cbn [den sdim]. rewrite (@sum_to_one nr _ (nth i pos 0%nat)).
    + unfold entry. rewrite Nat.eqb_refl. rewrite <- Vd by (apply RG, nth_In; auto). ring.
    + apply RG, nth_In; auto.
    + intros k _ N. unfold entry. destruct (Nat.eqb_spec (nth i pos 0%nat) k); [congruence|ring].
  - (* Compound *)
    pose proof C as C0. cbn [diag_fits] in UI. destruct UI as [UD UI]. cbn [conf] in C. destruct C as (srs & scs & S1 & S2 & D1 & D2 & C). cbn [sinv].
    destruct (negb (diagonal (length brs) (length bcs) sp) && negb (forallb (fun j => Nat.eqb (column_blocks (length brs) c j) 1) (seq 0 (length bcs)))) eqn:DF.
    { apply dflt_sinv_ok; auto. }
    (* the only block of column i *)
    assert (COL : forall i, (i < length bcs)%nat -> exists j blk, (if diagonal (length brs) (length bcs) sp then i else column_block (length brs) c i) = j /\ (j < length brs)%nat /\
               c j i = Some blk /\ forall l, (l < length brs)%nat -> l <> j -> c l i = None).
    { intros i Hi. destruct (diagonal (length brs) (length bcs) sp) eqn:DG.
      - specialize (UD eq_refl). pose proof (C i i ltac:(lia) Hi) as CI. destruct (c i i) as [m|] eqn:EB; [|specialize (CI eq_refl); congruence].
        exists i, m. repeat split; auto; [lia|]. intros l Hl N. specialize (C l i Hl Hi). destruct (c l i); [|reflexivity]. destruct C as [C1 _].
        rewrite (diagonal_off _ _ _ l i DG Hl Hi) in C1 by auto. discriminate.
      - cbn [negb andb] in DF. apply negb_false_iff in DF. destruct (fast_col _ _ c i DF Hi) as (b & EB & Hb & NB & U).
        destruct (c b i) as [m|] eqn:EM; [|congruence]. exists b, m. repeat split; auto. }
    destruct (loop_ind (length bcs) (fun (i : nat) (x : vec R) =>
          let j := if diagonal (length brs) (length bcs) sp then i else column_block (length brs) c i in
          match c j i with
          | Some blk =>
              if negb (Nat.ltb j (length brs)) then None else
              obind (part false (length bcs) i s) (fun si => obind (part false (length bcs) i z) (fun zi => obind (part false (length bcs) i r) (fun ri =>
              obind (part false (length brs) j d) (fun di =>
              on_part (length bcs) i (fun xi => sinv OR junk jscal blk alpha si ri zi di xi) x))))
          | None => None
          end) (fun k v => st (length bcs) sc scs k (fun b q => (fr (off scs b + q)%nat + alpha * fz (off scs b + q)%nat * matvec (Compound brs bcs sp c) true (sdim sr) fd (off scs b + q)) / fs (off scs b + q)%nat) v) x) as (x' & EQ & V).
    + apply st_start; auto.
    + intros i x1 Hi V1. destruct (COL i Hi) as (j & mm & EJ & Hjb & EB & U). cbn zeta. rewrite EJ, EB.
      apply Nat.ltb_lt in Hjb as LJ. rewrite LJ. cbn [negb].
      destruct (part_r false _ _ _ _ _ i S2 (blk_of _ _ _ _ _ S2 Vs) Hi) as (si & ES & VSi). rewrite ES. cbn [obind].
      destruct (part_r false _ _ _ _ _ i S2 (blk_of _ _ _ _ _ S2 Vz) Hi) as (zi & EZ & VZi). rewrite EZ. cbn [obind].
      destruct (part_r false _ _ _ _ _ i S2 (blk_of _ _ _ _ _ S2 Vr) Hi) as (ri & ER & VRi). rewrite ER. cbn [obind].
      destruct (part_r false _ _ _ _ _ j S1 (blk_of _ _ _ _ _ S1 Vd) Hjb) as (di & ED & VDi). rewrite ED. cbn [obind].
      apply st_step; auto. intros vk Tk. specialize (C j i Hjb Hi). specialize (IH j i). specialize (UI j i). rewrite EB in C, IH, UI. destruct C as [_ C].
      destruct (IH _ _ alpha si ri zi di vk _ _ _ _ UI C VSi VRi VZi VDi Tk) as (vk' & EM & VM). exists vk'. split; [exact EM|].
      eapply vrep_ext; [|exact VM]. intros q Hq. cbn beta. f_equal. f_equal. f_equal.
      assert (Hi' : (i < length scs)%nat) by (rewrite (splits_len _ _ _ S2); auto).
      rewrite (matvec_blocks brs bcs sp c srs scs sr sc true fd i q S1 S2 D1 D2 Hi' Hq).
      rewrite (splits_len _ _ _ S1). rewrite (@sum_to_one (length brs) _ j Hjb).
      * rewrite EB. reflexivity.
      * intros l Hl N. rewrite (U l Hl N). apply sum_to_zero. intros; ring.
    + exists x'. split; [exact EQ|]. apply st_end in V. eapply vrep_ext; [|exact V]. intros i Hi. rewrite (splits_dim _ _ _ S2) in Hi.
      destruct (locate_inv scs i Hi) as (b & q & B & Rr & ->). rewrite blk_off by auto. reflexivity.
Qed.
End Fused.
