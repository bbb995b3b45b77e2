(** Products with all matrix classes. *)
From Coq Require Import List Bool Arith Reals Lia Lra.
From Flocq Require Import Raux.
From Verif Require Import Num VecModel VecSpec VecProofs VecLift VecReal VecRed VecFresh ExpModel ExpSpec ExpProofs MatModel MatSpec MatVec MatLeaf.
Import ListNotations.
Local Open Scope R_scope.

Lemma F2len {A B} (R : A -> B -> Prop) l l' : Forall2 R l l' -> length l = length l'.
Proof. induction 1; simpl; auto. Qed.
(** ** Induction over matrices *)
Section Ind.
Context {T : Type} (Q : mat T -> Prop).
Definition optQ (o : option (mat T)) : Prop := match o with Some m => Q m | None => True end.
Hypothesis HGenT : forall nr nc ir jc vals, Q (GenT nr nc ir jc vals).
Hypothesis HSymT : forall n ir jc vals, Q (SymT n ir jc vals).
Hypothesis HDiag : forall d, Q (Diag d).
Hypothesis HIdent : forall n f, Q (Ident n f).
Hypothesis HZeroM : forall nr nc, Q (ZeroM nr nc).
Hypothesis HZeroSym : forall n, Q (ZeroSym n).
Hypothesis HExpan : forall nr pos, Q (Expan nr pos).
Hypothesis HScaled : forall r m c, Q m -> Q (Scaled r m c).
Hypothesis HSymScaled : forall rc m, Q m -> Q (SymScaled rc m).
Hypothesis HSum : forall nr nc k f t, (forall i, Q (t i)) -> Q (Sum nr nc k f t).
Hypothesis HSumSym : forall n k f t, (forall i, Q (t i)) -> Q (SumSym n k f t).
Hypothesis HCompound : forall brs bcs sp c, (forall i j, optQ (c i j)) -> Q (Compound brs bcs sp c).
Hypothesis HCompoundSym : forall bd c, (forall i j, optQ (c i j)) -> Q (CompoundSym bd c).
Hypothesis HTransp : forall m, Q m -> Q (Transp m).
Hypothesis HExpMV : forall k vecs rs nc P, Q (ExpMV k vecs rs nc P).
Hypothesis HMultiVec : forall nr k vecs, Q (MultiVec nr k vecs).
Hypothesis HLowRank : forall n D V U lrs P red, optQ P -> Q (LowRank n D V U lrs P red).
Fixpoint mat_ind' (m : mat T) : Q m :=
  match m with
  | GenT nr nc ir jc vals => HGenT nr nc ir jc vals
  | SymT n ir jc vals => HSymT n ir jc vals
  | Diag d => HDiag d
  | Ident n f => HIdent n f
  | ZeroM nr nc => HZeroM nr nc
  | ZeroSym n => HZeroSym n
  | Expan nr pos => HExpan nr pos
  | Scaled r m c => HScaled r m c (mat_ind' m)
  | SymScaled rc m => HSymScaled rc m (mat_ind' m)
  | Sum nr nc k f t => HSum nr nc k f t (fun i => mat_ind' (t i))
  | SumSym n k f t => HSumSym n k f t (fun i => mat_ind' (t i))
  | Compound brs bcs sp c => HCompound brs bcs sp c (fun i j => match c i j as o return optQ o with Some m => mat_ind' m | None => Logic.I end)
  | CompoundSym bd c => HCompoundSym bd c (fun i j => match c i j as o return optQ o with Some m => mat_ind' m | None => Logic.I end)
  | Transp m => HTransp m (mat_ind' m)
  | ExpMV k vecs rs nc P => HExpMV k vecs rs nc P
  | MultiVec nr k vecs => HMultiVec nr k vecs
  | LowRank n D V U lrs P red => HLowRank n D V U lrs P red (match P as o return optQ o with Some m => mat_ind' m | None => Logic.I end)
  end.
End Ind.

(** ** The symmetric classes denote symmetric matrices *)
Lemma outer_sym W i j : outer W i j = outer W j i.
Proof. destruct W as [[k vecs]|]; simpl; [|reflexivity]. apply sum_to_ext. intros; ring. Qed.
Lemma diag_sym (d : nat -> R) i j : (if (i =? j)%nat then d i else 0) = (if (j =? i)%nat then d j else 0).
Proof. rewrite (Nat.eqb_sym j i). destruct (Nat.eqb_spec i j) as [->|]; reflexivity. Qed.

Lemma den_sym m : symclass m = true -> forall s i j, conf m s s -> (i < sdim s)%nat -> (j < sdim s)%nat -> den m i j = den m j i.
Proof.
  induction m as [ | | | | | | | | rc m IH | | n k f t IH | | bd c IH | | | | n D V U lrs P red IH] using mat_ind';
    intros SC s i j C Hi Hj; try discriminate SC; cbn [den].
  - apply sum_to_ext. intros k _. rewrite orb_comm. reflexivity.
  - apply diag_sym.
  - apply (diag_sym (fun _ => _)).
  - reflexivity.
  - cbn [conf] in C. destruct C as (_ & C & _ & C2). rewrite (IH C2 s i j C Hi Hj). ring.
  - cbn [conf] in C. destruct C as (_ & _ & C). apply sum_to_ext. intros l Hl. destruct (C l Hl) as [C1 C2]. rewrite (IH l C2 s i j C1 Hi Hj). ring.
  - cbn [conf] in C. destruct C as (ss & -> & _ & <- & C).
    destruct (locate_inv ss i Hi) as (bi & ri & Bi & Ri & ->). destruct (locate_inv ss j Hj) as (bj & rj & Bj & Rj & ->).
    rewrite !locate_off by auto. rewrite map_length in C. destruct (Nat.leb_spec bj bi), (Nat.leb_spec bi bj); try reflexivity; try lia.
    assert (bj = bi) by lia. subst bj. specialize (C bi bi ltac:(lia) Bi). specialize (IH bi bi). destruct (c bi bi) as [m|]; [|reflexivity].
    destruct C as [C1 C2]. apply (IH (C2 eq_refl) _ ri rj C1 Ri Rj).
  - destruct P as [P|].
    + destruct red; [|rewrite (diag_sym (elem D)); f_equal]; rewrite sum_to_swap; apply sum_to_ext; intros a _; apply sum_to_ext; intros b _;
        rewrite (outer_sym V), (outer_sym U), ?(diag_sym (elem D) b a); ring.
    + rewrite (outer_sym V), (outer_sym U), (diag_sym (elem D)); reflexivity.
Qed.

(** ** Component-wise functions *)
Definition blk (parts : list space) (F : nat -> nat -> R) (i : nat) : R := let (b, r) := locate (map sdim parts) i in F b r.
Lemma blk_off parts F k i : (k < length parts)%nat -> (i < sdim (nth k parts sp0))%nat -> blk parts F (off parts k + i) = F k i.
Proof. intros. unfold blk. rewrite locate_off; auto. Qed.
Lemma splits_len nb s parts : splits nb s parts -> length parts = nb.
Proof. intros [[_ E]|(-> & -> & _)]; auto. Qed.
Lemma splits_dim nb s parts : splits nb s parts -> sdim s = sdim (SC parts).
Proof. intros [[-> _]|(_ & -> & _)]; [reflexivity|]. simpl. lia. Qed.
Lemma splits_SC parts : splits (length parts) (SC parts) parts.
Proof. left; auto. Qed.
Lemma blk_ext nb s parts F G v : splits nb s parts -> (forall b r, (b < nb)%nat -> (r < sdim (nth b parts sp0))%nat -> F b r = G b r) ->
  vrep s (blk parts F) v -> vrep s (blk parts G) v.
Proof.
  intros S H. apply vrep_ext. intros i Hi. rewrite (splits_dim _ _ _ S) in Hi. destruct (locate_inv parts i Hi) as (b & r & B & Rr & ->).
  rewrite !blk_off by auto. apply H; auto. rewrite <- (splits_len _ _ _ S). auto.
Qed.
Lemma blk_of nb s parts f v : splits nb s parts -> vrep s f v -> vrep s (blk parts (fun b r => f (off parts b + r)%nat)) v.
Proof.
  intros S. apply vrep_ext. intros i Hi. rewrite (splits_dim _ _ _ S) in Hi. destruct (locate_inv parts i Hi) as (b & r & B & Rr & ->).
  rewrite !blk_off by auto. reflexivity.
Qed.
Lemma part_r strict nb s parts F v k : splits nb s parts -> vrep s (blk parts F) v -> (k < nb)%nat ->
  exists vk, part strict nb k v = Some vk /\ vrep (nth k parts sp0) (F k) vk.
Proof.
  intros S H Hk. destruct S as [[-> L]|(-> & -> & N)].
  - pose proof H as H0. destruct H as [A _]. inversion A as [|? l Hl]; subst.
    apply vrep_comp in H0. destruct H0 as [L2 H2]. exists (nth k l dflt). unfold part. rewrite L2, Nat.eqb_refl. split.
    + apply nth_error_nth'. lia.
    + eapply vrep_ext; [|apply H2; auto]. intros i Hi. apply blk_off; auto.
  - assert (k = 0%nat) by lia. subst k. exists v. split.
    + unfold part. destruct v as [n d|l].
      * rewrite Nat.eqb_refl, andb_false_r. reflexivity.
      * destruct H as [A _]. inversion A as [|ls ? Hl]; subst. assert (NL : length l <> 1%nat).
        { specialize (N _ eq_refl). rewrite <- (F2len _ _ _ Hl). exact N. }
        apply Nat.eqb_neq in NL. rewrite NL, Nat.eqb_refl, andb_false_r. reflexivity.
    + cbn [nth]. eapply vrep_ext; [|exact H]. intros i Hi. apply (blk_off [s] F 0 i); simpl; auto.
Qed.
Lemma on_part_r nb s parts F G f v k : splits nb s parts -> vrep s (blk parts F) v -> (k < nb)%nat ->
  (forall vk, vrep (nth k parts sp0) (F k) vk -> exists vk', f vk = Some vk' /\ vrep (nth k parts sp0) G vk') ->
  exists v', on_part nb k f v = Some v' /\ vrep s (blk parts (fun b => if (b =? k)%nat then G else F b)) v'.
Proof.
  intros S H Hk Hf. destruct (part_r false _ _ _ _ _ _ S H Hk) as (vk & E & V). unfold on_part. rewrite E. cbn [obind].
  destruct (Hf vk V) as (vk' & -> & V'). cbn [obind]. eexists. split; [reflexivity|].
  destruct S as [[-> L]|(-> & -> & N)].
  - pose proof H as H0. destruct H as [A _]. inversion A as [|? l Hl]; subst.
    apply vrep_comp in H0. destruct H0 as [L2 H2]. unfold set_part. rewrite L2, Nat.eqb_refl. apply vrep_comp. rewrite upd_length. split; [auto|].
    intros b Hb. destruct (Nat.eq_dec b k) as [->|Nb].
    + rewrite nth_upd_same by lia. eapply vrep_ext; [|exact V']. intros i Hi. rewrite blk_off, Nat.eqb_refl by auto. reflexivity.
    + rewrite nth_upd_other by auto. eapply vrep_ext; [|apply H2; auto]. intros i Hi. rewrite !blk_off by auto. apply Nat.eqb_neq in Nb. rewrite Nb. reflexivity.
  - assert (k = 0%nat) by lia. subst k. unfold set_part.
    assert (K : vrep s (blk [s] (fun b => if (b =? 0)%nat then G else F b)) vk').
    { eapply vrep_ext; [|exact V']. cbn [nth]. intros i Hi. symmetry. apply (blk_off [s] (fun b => if (b =? 0)%nat then G else F b) 0 i); simpl; auto. }
    destruct v as [n d|l]; [exact K|]. destruct H as [A _]. inversion A as [|ls ? Hl]; subst. assert (NL : length l <> 1%nat).
    { specialize (N _ eq_refl). rewrite <- (F2len _ _ _ Hl). exact N. }
    apply Nat.eqb_neq in NL. rewrite NL. exact K.
Qed.
Lemma cpart_r parts F v k : vrep (SC parts) (blk parts F) v -> (k < length parts)%nat -> exists vk, cpart k v = Some vk /\ vrep (nth k parts sp0) (F k) vk.
Proof.
  intros H Hk. destruct (part_r false _ _ _ _ _ _ (splits_SC parts) H Hk) as (vk & E & V). exists vk. split; [|exact V].
  destruct H as [A _]. inversion A as [|? l Hl]; subst. unfold part in E. rewrite <- (F2len _ _ _ Hl), Nat.eqb_refl in E. exact E.
Qed.
Lemma on_cpart_r parts F G f v k : vrep (SC parts) (blk parts F) v -> (k < length parts)%nat ->
  (forall vk, vrep (nth k parts sp0) (F k) vk -> exists vk', f vk = Some vk' /\ vrep (nth k parts sp0) G vk') ->
  exists v', on_cpart k f v = Some v' /\ vrep (SC parts) (blk parts (fun b => if (b =? k)%nat then G else F b)) v'.
Proof.
  intros H Hk Hf. destruct (on_part_r _ _ _ _ G f v k (splits_SC parts) H Hk Hf) as (v' & E & V). exists v'. split; [|exact V].
  destruct H as [A _]. inversion A as [|? l Hl]; subst. unfold on_part, part, set_part in E. rewrite <- (F2len _ _ _ Hl), Nat.eqb_refl in E. exact E.
Qed.
Lemma diagonal_off nr nc sp i j : diagonal nr nc sp = true -> (i < nr)%nat -> (j < nc)%nat -> i <> j -> sp i j = false.
Proof.
  unfold diagonal. intros H Hi Hj N. rewrite forallb_forall in H. specialize (H i ltac:(apply in_seq; lia)).
  rewrite forallb_forall in H. specialize (H j ltac:(apply in_seq; lia)). apply Nat.eqb_neq in N. rewrite N in H. destruct (sp i j); auto.
Qed.

Section Main.
Variable lg : R -> R.
Notation OR := (R_ops lg).
Variables (junk : nat -> list R) (jscal : R).
Hypothesis Hj : forall n, length (junk n) = n.
Notation tgt := (target OR).

Lemma optmul_r s o f v : opt_in s o -> vrep s f v -> vrep s (fun i => optelem o i * f i) (opt_mul OR o v).
Proof.
  intros H V. destruct o as [w|]; cbn [opt_mul optelem].
  - eapply vrep_ext; [|apply (mul_r lg s (elem w) f w v); [apply vrep_self; exact H|exact V]]. intros; cbn beta; ring.
  - eapply vrep_ext; [|exact V]. intros; ring.
Qed.
Definition upd_lr (W : option (nat * (nat -> vec R))) a x b y :=
  match W with Some (k, vecs) => mv_lr OR junk k vecs a x b y | None => Some y end.
Lemma upd_lr_ok s W a x y fx fy : fam_in s W -> vrep s fx x -> vrep s fy y ->
  exists y', upd_lr W a x (t1 OR) y = Some y' /\ vrep s (fun i => fy i + a * sum_to (sdim s) (fun j => outer W i j * fx j)) y'.
Proof.
  intros H Vx Vy. destruct W as [[k vecs]|]; cbn [upd_lr outer].
  - destruct (mv_lr_ok lg junk Hj s k vecs a 1 x y fx fy H Vx (vrep_tgt lg _ _ _ Vy) (fun _ => Vy)) as (y' & E & V). exists y'. split; [exact E|].
    eapply vrep_ext; [|exact V]. intros; cbn beta; ring.
  - exists y. split; [reflexivity|]. eapply vrep_ext; [|exact Vy]. intros. rewrite sum_to_zero; [ring|intros; ring].
Qed.

(** the products of m are those of the denoted matrix *)
Definition good (m : mat R) : Prop := forall (sr sc : space) (tr : bool) (alpha beta : R) (x y : vec R) (fx fy : nat -> R), conf m sr sc ->
  vrep (if tr then sr else sc) fx x -> tgt (if tr then sc else sr) y -> (beta <> 0 -> vrep (if tr then sc else sr) fy y) ->
  exists y', mult OR junk jscal m tr alpha x beta y = Some y' /\
    vrep (if tr then sc else sr) (fun i => beta * fy i + alpha * matvec m tr (sdim (if tr then sr else sc)) fx i) y'.
(** for the symmetric classes it is enough to look at MultVector *)
Lemma good_sym m : symclass m = true -> (forall sr sc, conf m sr sc -> sr = sc) ->
  (forall tr alpha x beta y, mult OR junk jscal m tr alpha x beta y = mult OR junk jscal m false alpha x beta y) ->
  (forall s alpha beta x y fx fy, conf m s s -> vrep s fx x -> tgt s y -> (beta <> 0 -> vrep s fy y) ->
     exists y', mult OR junk jscal m false alpha x beta y = Some y' /\ vrep s (fun i => beta * fy i + alpha * matvec m false (sdim s) fx i) y') -> good m.
Proof.
  intros SC SQ TR H sr sc tr alpha beta x y fx fy C Vx Ty Vy. pose proof (SQ _ _ C) as <-.
  assert (EE : (if tr then sr else sr) = sr) by (destruct tr; reflexivity). rewrite EE in *.
  destruct (H sr alpha beta x y fx fy C Vx Ty Vy) as (y' & E & V). exists y'. rewrite TR. split; [exact E|].
  eapply vrep_ext; [|exact V]. intros i Hi. cbn beta. f_equal. f_equal. unfold matvec. apply sum_to_ext. intros j Hj'. destruct tr; [|reflexivity].
  rewrite (den_sym m SC sr i j C Hi Hj'). reflexivity.
Qed.

Lemma sum_diag n (d : nat -> R) fx i : (i < n)%nat -> sum_to n (fun j => (if (i =? j)%nat then d i else 0) * fx j) = d i * fx i.
Proof.
  intros H. rewrite (@sum_to_one n _ i H); [rewrite Nat.eqb_refl; reflexivity|]. intros j _ N. destruct (Nat.eqb_spec i j); [congruence|ring].
Qed.
Definition lowr (D : vec R) V U (a b : nat) : R := (if (a =? b)%nat then elem D a else 0) + (outer V a b - outer U a b).
Lemma lowr_sum D V U n f a : (a < n)%nat -> sum_to n (fun b => lowr D V U a b * f b) = elem D a * f a + (sum_to n (fun b => outer V a b * f b) - sum_to n (fun b => outer U a b * f b)).
Proof.
  intros H. rewrite (@sum_to_ext n _ (fun b => (if (a =? b)%nat then elem D a else 0) * f b + (outer V a b * f b + -1 * (outer U a b * f b)))) by (intros; unfold lowr; ring).
  rewrite !sum_to_plus, sum_diag, sum_to_scal by auto. ring.
Qed.
Ltac fin V := eexists; split; [reflexivity|]; eapply vrep_ext; [|exact V]; intros i Hi; cbn beta.

Theorem mult_ok m : good m.
Proof.
  induction m as [nr nc ir jc vals|n ir jc vals|d|n f|nr nc|n|nr pos|r m c IH|rc m IH|nr nc k f t IH|n k f t IH|brs bcs sp c IH|bd c IH|m IH|k vecs rs nc P|nr k vecs|n D V U lrs P red IH] using mat_ind'.
  - (* GenT *)
    intros sr sc tr alpha beta x y fx fy C Vx Ty Vy. cbn [conf] in C. destruct C as (<- & <- & L1 & L2 & R1 & R2 & SH). cbn [mult].
    destruct tr.
    + destruct (gent_mult_ok lg junk jc ir vals alpha beta x y fx fy sr sc) as (y' & E & V); auto.
      { intros N. destruct (SH N). auto. }
      exists y'. split; [exact E|]. eapply vrep_ext; [|exact V]. intros i Hi. cbn beta. f_equal. f_equal. unfold matvec.
      rewrite (gcontr_den (sdim sc) (sdim sr) jc ir vals fx i (sdim sr)) by auto. apply sum_to_ext. intros j _. f_equal. cbn [den]. apply sum_to_ext. intros. rewrite andb_comm. reflexivity.
    + destruct (gent_mult_ok lg junk ir jc vals alpha beta x y fx fy sc sr) as (y' & E & V); auto.
      exists y'. split; [exact E|]. eapply vrep_ext; [|exact V]. intros i Hi. cbn beta. f_equal. f_equal. unfold matvec. apply gcontr_den; auto.
  - (* SymT *)
    apply good_sym; [reflexivity|cbn [conf]; intros; destruct H as (-> & -> & _); reflexivity|reflexivity|].
    intros s alpha beta x y fx fy C Vx Ty Vy. cbn [conf] in C. destruct C as (-> & _ & L1 & L2 & R1 & R2). cbn [mult].
    destruct (symt_mult_ok lg junk ir jc vals alpha beta x y fx fy n) as (y' & E & V); auto.
    exists y'. split; [exact E|]. eapply vrep_ext; [|exact V]. intros i Hi. cbn beta. f_equal. f_equal. unfold matvec. apply scontr_den; auto.
  - (* Diag *)
    apply good_sym; [reflexivity|cbn [conf]; intros; apply H|reflexivity|].
    intros s alpha beta x y fx fy C Vx Ty Vy. cbn [conf] in C. destruct C as (_ & Hd). cbn [mult].
    fin (diag_mult_ok lg jscal s d alpha beta x y fx fy Hd Vx Ty Vy). f_equal. f_equal. unfold matvec. cbn [den]. symmetry. apply sum_diag; auto.
  - (* Ident *)
    apply good_sym; [reflexivity|cbn [conf]; intros; apply H|reflexivity|].
    intros s alpha beta x y fx fy C Vx Ty Vy. cbn [conf] in C. destruct C as (_ & Hd). cbn [mult].
    fin (addone_r lg junk Hj (alpha * f) beta s fx fy x y Vx Ty Vy). unfold matvec. cbn [den]. rewrite (sum_diag (sdim s) (fun _ => f)) by auto. ring.
  - (* ZeroM *)
    intros sr sc tr alpha beta x y fx fy C Vx Ty Vy. cbn [mult]. fin (yscale_r lg beta _ fy y Ty Vy).
    unfold matvec. rewrite sum_to_zero; [ring|]. intros. destruct tr; cbn [den]; ring.
  - (* ZeroSym *)
    intros sr sc tr alpha beta x y fx fy C Vx Ty Vy. cbn [mult]. fin (yscale_r lg beta _ fy y Ty Vy).
    unfold matvec. rewrite sum_to_zero; [ring|]. intros. destruct tr; cbn [den]; ring.
  - (* Expan *)
    intros sr sc tr alpha beta x y fx fy C Vx Ty Vy. cbn [conf] in C. destruct C as (-> & -> & HP). cbn [mult].
    destruct tr; [apply exp_trans_ok|apply exp_mult_ok]; auto.
  - (* Scaled *)
    intros sr sc tr alpha beta x y fx fy C Vx Ty Vy. cbn [conf] in C. destruct C as (C & Hr & Hc). cbn [mult].
    pose proof (yscale_r lg beta _ fy y Ty Vy) as VS.
    assert (VT : vrep (if tr then sr else sc) (fun i => optelem (if tr then r else c) i * fx i)
                   (opt_mul OR (if tr then r else c) (v_copy x (v_makenew OR jscal x)))).
    { apply optmul_r; [destruct tr; auto|]. apply (copy_r lg); [exact Vx|]. apply tgt_makenew. eapply vrep_tgt; exact Vx. }
    destruct (IH sr sc tr (t1 OR) (t0 OR) _ (v_makenew OR jscal (yscale OR beta y)) _ (fun _ => 0) C VT) as (ty & E & V).
    { apply tgt_makenew. eapply vrep_tgt; exact VS. }
    { cbn [R_ops t0]. lra. }
    rewrite E. cbn [obind].
    assert (VO : opt_in (if tr then sc else sr) (if tr then c else r)) by (destruct tr; auto).
    fin (axpy_r lg alpha _ _ _ _ _ (optmul_r _ _ _ _ VO V) VS). f_equal. f_equal. cbn [R_ops t0 t1]. rewrite Rmult_0_l, Rplus_0_l, Rmult_1_l.
    unfold matvec. rewrite <- sum_to_scal. apply sum_to_ext. intros j _. cbn [den]. destruct tr; ring.
  - (* SymScaled *)
    apply good_sym; [reflexivity|cbn [conf]; intros; apply H|reflexivity|].
    intros s alpha beta x y fx fy C Vx Ty Vy. cbn [conf] in C. destruct C as (_ & C & Hr & _). cbn [mult].
    pose proof (yscale_r lg beta _ fy y Ty Vy) as VS.
    assert (VT : vrep s (fun i => optelem rc i * fx i) (opt_mul OR rc (v_copy x (v_makenew OR jscal x)))).
    { apply optmul_r; [auto|]. apply (copy_r lg); [exact Vx|]. apply tgt_makenew. eapply vrep_tgt; exact Vx. }
    destruct (IH s s false (t1 OR) (t0 OR) _ (v_makenew OR jscal (yscale OR beta y)) _ (fun _ => 0) C VT) as (ty & E & V).
    { apply tgt_makenew. eapply vrep_tgt; exact VS. }
    { cbn [R_ops t0]. lra. }
    rewrite E. cbn [obind].
    fin (axpy_r lg alpha _ _ _ _ _ (optmul_r _ _ _ _ Hr V) VS). f_equal. f_equal. cbn [R_ops t0 t1]. rewrite Rmult_0_l, Rplus_0_l, Rmult_1_l.
    unfold matvec. rewrite <- sum_to_scal. apply sum_to_ext. intros j _. cbn [den]. ring.
  - (* Sum *)
    intros sr sc tr alpha beta x y fx fy C Vx Ty Vy. cbn [conf] in C. destruct C as (<- & <- & C). cbn [mult].
    pose proof (yscale_r lg beta _ fy y Ty Vy) as VS.
    destruct (loop_ind k (fun i y => mult OR junk jscal (t i) tr (tmul OR alpha (f i)) x (t1 OR) y)
      (fun l y' => vrep (if tr then sc else sr) (fun i => beta * fy i + alpha * sum_to l (fun l => f l * matvec (t l) tr (sdim (if tr then sr else sc)) fx i)) y')
      (yscale OR beta y)) as (y' & E & V).
    + eapply vrep_ext; [|exact VS]. intros; cbn [sum_to]; ring.
    + intros l b Hl Vb. destruct (IH l sr sc tr (tmul OR alpha (f l)) (t1 OR) x b fx _ (C l Hl) Vx (vrep_tgt lg _ _ _ Vb) (fun _ => Vb)) as (b' & E & V).
      exists b'. split; [exact E|]. eapply vrep_ext; [|exact V]. intros i _. cbn [sum_to]. cbn [R_ops t1 tmul]. ring.
    + exists y'. split; [exact E|]. eapply vrep_ext; [|exact V]. intros i _. cbn beta. f_equal. f_equal. unfold matvec.
      rewrite (@sum_to_ext k _ (fun l => sum_to (sdim (if tr then sr else sc)) (fun j => f l * (if tr then den (t l) j i else den (t l) i j) * fx j))).
      2:{ intros. rewrite <- sum_to_scal. apply sum_to_ext. intros; ring. }
      rewrite sum_to_swap. apply sum_to_ext. intros j _. destruct tr; cbn [den]; rewrite (Rmult_comm _ (fx j)), <- sum_to_scal; apply sum_to_ext; intros; ring.
  - (* SumSym *)
    apply good_sym; [reflexivity|cbn [conf]; intros; apply H|reflexivity|].
    intros s alpha beta x y fx fy C Vx Ty Vy. cbn [conf] in C. destruct C as (_ & _ & C). cbn [mult].
    pose proof (yscale_r lg beta _ fy y Ty Vy) as VS.
    destruct (loop_ind k (fun i y => mult OR junk jscal (t i) false (tmul OR alpha (f i)) x (t1 OR) y)
      (fun l y' => vrep s (fun i => beta * fy i + alpha * sum_to l (fun l => f l * matvec (t l) false (sdim s) fx i)) y')
      (yscale OR beta y)) as (y' & E & V).
    + eapply vrep_ext; [|exact VS]. intros; cbn [sum_to]; ring.
    + intros l b Hl Vb. destruct (C l Hl) as [Cl _]. destruct (IH l s s false (tmul OR alpha (f l)) (t1 OR) x b fx _ Cl Vx (vrep_tgt lg _ _ _ Vb) (fun _ => Vb)) as (b' & E & V).
      exists b'. split; [exact E|]. eapply vrep_ext; [|exact V]. intros i _. cbn [sum_to]. cbn [R_ops t1 tmul]. ring.
    + exists y'. split; [exact E|]. eapply vrep_ext; [|exact V]. intros i _. cbn beta. f_equal. f_equal. unfold matvec.
      rewrite (@sum_to_ext k _ (fun l => sum_to (sdim s) (fun j => f l * den (t l) i j * fx j))).
      2:{ intros. rewrite <- sum_to_scal. apply sum_to_ext. intros; ring. }
      rewrite sum_to_swap. apply sum_to_ext. intros j _. cbn [den]; rewrite (Rmult_comm _ (fx j)), <- sum_to_scal; apply sum_to_ext; intros; ring.
  - (* Compound *)
    intros sr sc tr alpha beta x y fx fy C Vx Ty Vy. cbn [conf] in C. destruct C as (srs & scs & S1 & S2 & D1 & D2 & C). cbn [mult].
    pose proof (yscale_r lg beta _ fy y Ty Vy) as VS.
    set (nbx := if tr then length brs else length bcs) in *. set (nby := if tr then length bcs else length brs) in *.
    set (px := if tr then srs else scs). set (py := if tr then scs else srs).
    set (sx := if tr then sr else sc) in *. set (sy := if tr then sc else sr) in *.
    assert (SX : splits nbx sx px) by (destruct tr; auto). assert (SY : splits nby sy py) by (destruct tr; auto).
    set (E := fun b l r q => match (if tr then c l b else c b l) with Some m => if tr then den m q r else den m r q | None => 0 end).
    set (SB := fun b r J => sum_to J (fun l => sum_to (sdim (nth l px sp0)) (fun q => E b l r q * fx (off px l + q)%nat))).
    set (INV := fun i j y' => vrep sy (blk py (fun b r => beta * fy (off py b + r)%nat + alpha * (if (b <? i)%nat then SB b r nbx else if (b =? i)%nat then SB b r j else 0))) y').
    match goal with |- context [loop nby ?F (yscale OR beta y)] => destruct (loop_ind nby F (fun i => INV i 0%nat) (yscale OR beta y)) as (y' & EQ & V) end.
    + unfold INV. eapply blk_ext; [exact SY| |eapply blk_of; [exact SY|exact VS]]. intros b r Hb Hr. cbn beta.
      unfold SB. destruct (b =? 0)%nat; cbn [sum_to]; destruct (Nat.ltb_spec b 0); try lia; ring.
    + intros i b Hi Vb.
      match goal with |- exists b', loop nbx ?F b = Some b' /\ _ => destruct (loop_ind nbx F (INV i) b Vb) as (b' & EQ & V) end.
      * intros j y1 Hjx V1.
        assert (CB : match (if tr then c j i else c i j) with
                     | Some m => (diagonal (length brs) (length bcs) sp = true -> i = j) /\ good m /\
                                 conf m (nth (if tr then j else i) srs sp0) (nth (if tr then i else j) scs sp0)
                     | None => diagonal (length brs) (length bcs) sp = true -> i <> j
                     end).
        { destruct tr.
          - specialize (C j i Hjx Hi). specialize (IH j i). destruct (c j i) as [mm|].
            + destruct C as [C1 C2]. split; [|split; [exact IH|exact C2]]. intros DG. destruct (Nat.eq_dec i j); auto. rewrite (diagonal_off _ _ _ j i DG Hjx Hi) in C1 by auto. discriminate.
            + intros DG ->. rewrite C in DG by auto. discriminate.
          - specialize (C i j Hi Hjx). specialize (IH i j). destruct (c i j) as [mm|].
            + destruct C as [C1 C2]. split; [|split; [exact IH|exact C2]]. intros DG. destruct (Nat.eq_dec i j); auto. rewrite (diagonal_off _ _ _ i j DG Hi Hjx) in C1 by auto. discriminate.
            + intros DG ->. rewrite C in DG by auto. discriminate. }
        destruct (if tr then c j i else c i j) as [mm|] eqn:EB.
        -- destruct CB as (DG & GM & CM).
           assert (DD : diagonal (length brs) (length bcs) sp && negb (i =? j)%nat = false).
           { destruct (diagonal (length brs) (length bcs) sp); [|reflexivity]. rewrite (DG eq_refl), Nat.eqb_refl. reflexivity. }
           rewrite DD.
           destruct (part_r (negb tr) _ _ _ _ _ j SX (blk_of _ _ _ _ _ SX Vx) Hjx) as (xj & EX & VX). rewrite EX. cbn [obind].
           unfold INV in V1.
           destruct (on_part_r _ _ _ _ (fun r => beta * fy (off py i + r)%nat + alpha * SB i r (S j)) (fun yi => mult OR junk jscal mm tr alpha xj (t1 OR) yi) _ i SY V1 Hi) as (y2 & EY & V2).
           { intros vk Vk. cbn beta in Vk. rewrite Nat.ltb_irrefl, Nat.eqb_refl in Vk.
             assert (PX : (if tr then nth (if tr then j else i) srs sp0 else nth (if tr then i else j) scs sp0) = nth j px sp0) by (unfold px; destruct tr; reflexivity).
             assert (PY : (if tr then nth (if tr then i else j) scs sp0 else nth (if tr then j else i) srs sp0) = nth i py sp0) by (unfold py; destruct tr; reflexivity).
             pose proof (GM _ _ tr alpha 1 xj vk (fun r => fx (off px j + r)%nat) (fun r => beta * fy (off py i + r)%nat + alpha * SB i r j) CM) as GK. rewrite PX, PY in GK.
             destruct (GK VX (vrep_tgt lg _ _ _ Vk) (fun _ => Vk)) as (vk' & EM & VM).
             exists vk'. split; [exact EM|]. eapply vrep_ext; [|exact VM]. intros r Hr. cbn beta. unfold SB. cbn [sum_to].
             unfold E at 3. rewrite EB. unfold matvec. ring. }
           rewrite EY. exists y2. split; [reflexivity|]. unfold INV. eapply blk_ext; [exact SY| |exact V2]. intros b0 r Hb0 Hr. cbn beta.
           destruct (Nat.eqb_spec b0 i) as [->|N]; [rewrite Nat.ltb_irrefl; reflexivity|reflexivity].
        -- assert (DD : diagonal (length brs) (length bcs) sp && (i =? j)%nat = false).
           { destruct (diagonal (length brs) (length bcs) sp); [|reflexivity]. destruct (Nat.eqb_spec i j); [exfalso; apply CB; auto|reflexivity]. }
           rewrite DD. exists y1. split; [reflexivity|]. unfold INV. eapply blk_ext; [exact SY| |exact V1]. intros b0 r Hb0 Hr. cbn beta.
           destruct (Nat.eqb_spec b0 i) as [->|N]; [|reflexivity]. rewrite Nat.ltb_irrefl. unfold SB. cbn [sum_to]. unfold E at 3. rewrite EB.
           rewrite (@sum_to_zero (sdim (nth j px sp0))); [rewrite Rplus_0_r; reflexivity|intros; ring].
      * exists b'. split; [exact EQ|]. unfold INV in *. eapply blk_ext; [exact SY| |exact V]. intros b0 r Hb0 Hr. cbn beta. f_equal. f_equal.
        destruct (Nat.ltb_spec b0 i), (Nat.ltb_spec b0 (S i)), (Nat.eqb_spec b0 i), (Nat.eqb_spec b0 (S i)); try lia; reflexivity.
    + exists y'. split; [exact EQ|]. unfold INV in V. eapply vrep_ext; [|exact V]. intros i Hi. rewrite (splits_dim _ _ _ SY) in Hi.
      destruct (locate_inv py i Hi) as (b & r & B & Rr & ->). rewrite blk_off by auto.
      assert (Bn : (b <? nby)%nat = true) by (apply Nat.ltb_lt; rewrite <- (splits_len _ _ _ SY); auto). rewrite Bn. f_equal. f_equal.
      unfold matvec. rewrite (splits_dim _ _ _ SX), sum_blocks, (splits_len _ _ _ SX). unfold SB. apply sum_to_ext. intros l Hl. apply sum_to_ext. intros q Hq. f_equal.
      rewrite <- (splits_len _ _ _ SX) in Hl.
      unfold E, px, py in *. rewrite <- D1, <- D2. destruct tr; cbn [den]; rewrite !locate_off by auto; reflexivity.
  - (* CompoundSym *)
    apply good_sym; [reflexivity|cbn [conf]; intros sr sc H; destruct H as (? & -> & -> & _); reflexivity|reflexivity|].
    intros s alpha beta x y fx fy C Vx Ty Vy. cbn [conf] in C. destruct C as (ss & -> & _ & DB & C). cbn [mult].
    pose proof (yscale_r lg beta _ fy y Ty Vy) as VS.
    assert (XC : exists lx, x = Comp lx) by (destruct Vx as [A _]; inversion A; eauto). assert (YC : exists ly, y = Comp ly) by (apply tgt_comp in Ty; destruct Ty as (l & -> & _); eauto).
    destruct XC as [lx EX]. destruct YC as [ly EY]. rewrite EX, EY. rewrite <- EX, <- EY. clear EX EY lx ly.
    assert (LB : length bd = length ss) by (rewrite <- DB, map_length; auto). set (nb := length bd) in *.
    set (E := fun b l r q => if (l <=? b)%nat then match c b l with Some m => den m r q | None => 0 end else match c l b with Some m => den m q r | None => 0 end).
    set (SB := fun b r J => sum_to J (fun l => sum_to (sdim (nth l ss sp0)) (fun q => E b l r q * fx (off ss l + q)%nat))).
    set (INV := fun i j y' => vrep (SC ss) (blk ss (fun b r => beta * fy (off ss b + r)%nat + alpha * (if (b <? i)%nat then SB b r nb else if (b =? i)%nat then SB b r j else 0))) y').
    pose proof (splits_SC ss) as SY.
    assert (STEP : forall (i j : nat) (y1 : vec R) (mm : mat R) (tr : bool), (i < nb)%nat -> (j < nb)%nat -> INV i j y1 -> good mm ->
              (if tr then conf mm (nth j ss sp0) (nth i ss sp0) else conf mm (nth i ss sp0) (nth j ss sp0)) ->
              (forall r q, E i j r q = if tr then den mm q r else den mm r q) ->
              exists y2, obind (cpart j x) (fun xj => on_cpart i (fun yi => mult OR junk jscal mm tr alpha xj (t1 OR) yi) y1) = Some y2 /\ INV i (S j) y2).
    { intros i j y1 mm tr Hi Hjx V1 GM CM EE. rewrite LB in Hi, Hjx.
      destruct (cpart_r ss _ x j (blk_of _ _ _ _ _ SY Vx) Hjx) as (xj & EX & VX). rewrite EX. cbn [obind]. unfold INV in V1.
      destruct (on_cpart_r ss _ (fun r => beta * fy (off ss i + r)%nat + alpha * SB i r (S j)) (fun yi => mult OR junk jscal mm tr alpha xj (t1 OR) yi) _ i V1 Hi) as (y2 & EY & V2).
      { intros vk Vk. cbn beta in Vk. rewrite Nat.ltb_irrefl, Nat.eqb_refl in Vk.
        assert (GG : exists vk', mult OR junk jscal mm tr alpha xj (t1 OR) vk = Some vk' /\
           vrep (nth i ss sp0) (fun r => 1 * (beta * fy (off ss i + r)%nat + alpha * SB i r j) + alpha * matvec mm tr (sdim (nth j ss sp0)) (fun q => fx (off ss j + q)%nat) r) vk').
        { destruct tr.
          - apply (GM (nth j ss sp0) (nth i ss sp0) true alpha 1 xj vk); auto. eapply vrep_tgt; exact Vk.
          - apply (GM (nth i ss sp0) (nth j ss sp0) false alpha 1 xj vk); auto. eapply vrep_tgt; exact Vk. }
        destruct GG as (vk' & EM & VM). exists vk'. split; [exact EM|]. eapply vrep_ext; [|exact VM]. intros r Hr. cbn beta. unfold SB. cbn [sum_to]. unfold matvec.
        rewrite (@sum_to_ext (sdim (nth j ss sp0)) (fun q => E i j r q * fx (off ss j + q)%nat) (fun q => (if tr then den mm q r else den mm r q) * fx (off ss j + q)%nat)) by (intros; rewrite EE; reflexivity).
        ring. }
      rewrite EY. exists y2. split; [reflexivity|]. unfold INV. eapply blk_ext; [exact SY| |exact V2]. intros b0 r Hb0 Hr. cbn beta.
      destruct (Nat.eqb_spec b0 i) as [->|N]; [rewrite Nat.ltb_irrefl; reflexivity|reflexivity]. }
    assert (SKIP : forall i j y1, INV i j y1 -> (forall r q, E i j r q = 0) -> INV i (S j) y1).
    { intros i j y1 V1 EE. unfold INV. eapply blk_ext; [exact SY| |exact V1]. intros b0 r Hb0 Hr. cbn beta.
      destruct (Nat.eqb_spec b0 i) as [->|N]; [|reflexivity]. rewrite Nat.ltb_irrefl. unfold SB. cbn [sum_to].
      rewrite (@sum_to_zero (sdim (nth j ss sp0))); [rewrite Rplus_0_r; reflexivity|intros; rewrite EE; ring]. }
    match goal with |- context [loop nb ?F (yscale OR beta y)] => destruct (loop_ind nb F (fun i => INV i 0%nat) (yscale OR beta y)) as (y' & EQ & V) end.
    + unfold INV. eapply blk_ext; [exact SY| |eapply blk_of; [exact SY|exact VS]]. intros b r Hb Hr. cbn beta.
      unfold SB. destruct (b =? 0)%nat; cbn [sum_to]; destruct (Nat.ltb_spec b 0); try lia; ring.
    + intros i b Hi Vb.
      match goal with |- exists b', obind (loop (S i) ?F b) _ = _ /\ _ => destruct (loop_ind (S i) F (INV i) b Vb) as (b1 & EQ1 & V1) end.
      { intros j y1 Hjx V1. specialize (C i j ltac:(lia) Hi). specialize (IH i j). destruct (c i j) as [mm|] eqn:EB.
        - apply (STEP i j y1 mm false Hi ltac:(lia) V1 IH (proj1 C)). intros r q. unfold E. destruct (Nat.leb_spec j i); [|lia]. rewrite EB. reflexivity.
        - exists y1. split; [reflexivity|]. apply SKIP; [exact V1|]. intros r q. unfold E. destruct (Nat.leb_spec j i); [|lia]. rewrite EB. reflexivity. }
      rewrite EQ1. cbn [obind].
      match goal with |- exists b', loop ?N ?F b1 = _ /\ _ => destruct (loop_ind N F (fun d => INV i (S i + d)%nat) b1) as (b2 & EQ2 & V2) end.
      { rewrite Nat.add_0_r. exact V1. }
      { intros d y1 Hd V2. cbn beta zeta. specialize (C (S i + d)%nat i ltac:(lia) ltac:(lia)). specialize (IH (S i + d)%nat i). 
        replace (S i + S d)%nat with (S (S i + d)) by lia. set (j := (S i + d)%nat) in *.
        destruct (c j i) as [mm|] eqn:EB.
        - apply (STEP i j y1 mm true Hi ltac:(unfold j; lia) V2 IH (proj1 C)). intros r q. unfold E. destruct (Nat.leb_spec j i); [unfold j in *; lia|]. rewrite EB. reflexivity.
        - exists y1. split; [reflexivity|]. apply SKIP; [exact V2|]. intros r q. unfold E. destruct (Nat.leb_spec j i); [unfold j in *; lia|]. rewrite EB. reflexivity. }
      exists b2. split; [exact EQ2|]. replace (S i + (nb - S i))%nat with nb in V2 by lia. unfold INV in *. eapply blk_ext; [exact SY| |exact V2]. intros b0 r Hb0 Hr. cbn beta. f_equal. f_equal.
      destruct (Nat.ltb_spec b0 i), (Nat.ltb_spec b0 (S i)), (Nat.eqb_spec b0 i), (Nat.eqb_spec b0 (S i)); try lia; reflexivity.
    + exists y'. split; [exact EQ|]. unfold INV in V. eapply vrep_ext; [|exact V]. intros i Hi.
      destruct (locate_inv ss i Hi) as (b & r & B & Rr & ->). rewrite blk_off by auto.
      assert (Bn : (b <? nb)%nat = true) by (apply Nat.ltb_lt; lia). rewrite Bn. f_equal. f_equal.
      unfold matvec. rewrite sum_blocks. unfold SB. rewrite LB. apply sum_to_ext. intros l Hl. apply sum_to_ext. intros q Hq. f_equal.
      unfold E. rewrite <- DB. cbn [den]; rewrite !locate_off by auto; reflexivity.
  - (* Transp *)
    intros sr sc tr alpha beta x y fx fy C Vx Ty Vy. cbn [conf] in C. cbn [mult].
    destruct tr.
    + destruct (IH sc sr false alpha beta x y fx fy C Vx Ty Vy) as (y' & E & V). exists y'. split; [exact E|]. exact V.
    + destruct (IH sc sr true alpha beta x y fx fy C Vx Ty Vy) as (y' & E & V). exists y'. split; [exact E|]. exact V.
  - (* ExpMV *)
    intros sr sc tr alpha beta x y fx fy C Vx Ty Vy. cbn [conf] in C. destruct C as (-> & _ & Hv & HP). cbn [mult].
    assert (SH : emv_shape k vecs rs sc P) by (split; auto). destruct tr.
    + apply (emv_trans_ok lg junk jscal Hj k vecs rs sc P alpha beta x y fx fy); auto.
    + apply (emv_mult_ok lg junk jscal Hj k vecs rs sc P alpha beta x y fx fy); auto.
  - (* MultiVec *)
    intros sr sc tr alpha beta x y fx fy C Vx Ty Vy. cbn [conf] in C. destruct C as (_ & -> & Hv). cbn [mult]. destruct tr.
    + apply (mv_trans_ok lg junk Hj sr); auto.
    + apply (mv_mult_ok lg junk Hj sr); auto.
  - (* LowRank *)
    apply good_sym; [reflexivity|cbn [conf]; intros; apply H|intros; destruct P, red; reflexivity|].
    intros s alpha beta x y fx fy C Vx Ty Vy. cbn [conf] in C. destruct C as (_ & _ & C). cbn [mult]. cbn zeta.
    destruct P as [P|].
    + destruct C as (CP & HV & HU & HD).
      destruct (IH s lrs true (t1 OR) (t0 OR) x (v_new OR jscal lrs) fx (fun _ => 0) CP Vx) as (sx & EX & VX); [apply tgt_new|cbn [R_ops t0]; lra|].
      destruct red.
      * rewrite EX. cbn [obind].
        pose proof (mul_r lg lrs _ _ _ _ (vrep_self _ _ HD) (copy_r lg lrs _ sx _ VX (tgt_new lg jscal lrs))) as V0.
        destruct (upd_lr_ok lrs V (t1 OR) sx _ _ _ HV VX V0) as (y1 & E1 & V1). unfold upd_lr in E1. rewrite E1. cbn [obind].
        destruct (upd_lr_ok lrs U (tm1 OR) sx _ _ _ HU VX V1) as (y2 & E2 & V2). unfold upd_lr in E2. rewrite E2. cbn [obind].
        destruct (IH s lrs false alpha beta y2 y _ fy CP V2 Ty Vy) as (y' & E & Vr). exists y'. split; [exact E|]. eapply vrep_ext; [|exact Vr].
        intros i Hi. cbn beta. f_equal. f_equal. unfold matvec. cbn [den]. cbn [R_ops t0 t1 tm1].
        rewrite (@sum_to_ext (sdim s) _ (fun j => sum_to (sdim lrs) (fun a => sum_to (sdim lrs) (fun b => den P i a * lowr D V U a b * (den P j b * fx j))))).
        2:{ intros j _. rewrite Rmult_comm, <- sum_to_scal. apply sum_to_ext. intros a _. rewrite <- sum_to_scal. apply sum_to_ext. intros b _. unfold lowr. ring. }
        rewrite sum_to_swap. apply sum_to_ext. intros a Ha.
        rewrite sum_to_swap.
        rewrite (@sum_to_ext (sdim lrs) (fun j => sum_to (sdim s) _) (fun b => den P i a * (lowr D V U a b * sum_to (sdim s) (fun j => den P j b * fx j)))).
        2:{ intros b _. rewrite <- !sum_to_scal. apply sum_to_ext. intros; ring. }
        rewrite sum_to_scal. f_equal. rewrite lowr_sum by auto.
        assert (KK : forall W, sum_to (sdim lrs) (fun j => outer W a j * (0 * 0 + 1 * sum_to (sdim s) (fun j0 => den P j0 j * fx j0)))
                    = sum_to (sdim lrs) (fun j => outer W a j * sum_to (sdim s) (fun j0 => den P j0 j * fx j0))) by (intros; apply sum_to_ext; intros; ring).
        rewrite !KK. ring.
      * pose proof (addone_r lg junk Hj alpha beta s _ fy _ y (mul_r lg s _ _ _ _ (vrep_self _ _ HD) (copy_r lg s fx x _ Vx (tgt_makenew lg jscal _ _ (vrep_tgt lg _ _ _ Vx)))) Ty Vy) as V0.
        rewrite EX. cbn [obind].
        assert (LV : exists y1, (match V with Some (k, vecs) => mv_lr OR junk k vecs (t1 OR) sx (t0 OR) (v_new OR jscal lrs) | None => Some (v_set (t0 OR) (v_new OR jscal lrs)) end) = Some y1 /\
                  vrep lrs (fun i => sum_to (sdim lrs) (fun j => outer V i j * sum_to (sdim s) (fun q => den P q j * fx q))) y1).
        { destruct V as [[k vecs]|]; cbn [outer].
          - destruct (mv_lr_ok lg junk Hj lrs k vecs (t1 OR) (t0 OR) sx (v_new OR jscal lrs) _ (fun _ => 0) HV VX) as (y1 & E1 & V1); [apply tgt_new|cbn [R_ops t0]; lra|].
            exists y1. split; [exact E1|]. eapply vrep_ext; [|exact V1]. intros i _. cbn beta. cbn [R_ops t0 t1]. rewrite Rmult_0_l, Rplus_0_l, Rmult_1_l.
            apply sum_to_ext. intros j _. unfold matvec. f_equal. ring.
          - eexists. split; [reflexivity|]. eapply vrep_ext; [|apply (set_r lg); apply tgt_new]. intros. cbn beta. symmetry. apply sum_to_zero. intros; ring. }
        destruct LV as (y1 & E1 & V1). rewrite E1. cbn [obind].
        destruct (upd_lr_ok lrs U (tm1 OR) sx _ _ _ HU VX V1) as (y2 & E2 & V2). unfold upd_lr in E2. rewrite E2. cbn [obind].
        destruct (IH s lrs false alpha (t1 OR) y2 _ _ _ CP V2 (vrep_tgt lg _ _ _ V0) (fun _ => V0)) as (y' & E & Vr). exists y'. split; [exact E|]. eapply vrep_ext; [|exact Vr].
        intros i Hi. cbn beta. unfold matvec. cbn [den]. cbn [R_ops t0 t1 tm1].
        rewrite (@sum_to_ext (sdim s) (fun j => ((if (i =? j)%nat then elem D i else 0) + _) * fx j)
           (fun j => (if (i =? j)%nat then elem D i else 0) * fx j + sum_to (sdim lrs) (fun a => sum_to (sdim lrs) (fun b => den P i a * (outer V a b - outer U a b) * (den P j b * fx j))))).
        2:{ intros j _. rewrite Rmult_plus_distr_r. f_equal. rewrite Rmult_comm, <- sum_to_scal. apply sum_to_ext. intros a _. rewrite <- sum_to_scal. apply sum_to_ext. intros b _. ring. }
        rewrite sum_to_plus, sum_diag by auto.
        match goal with |- _ = beta * fy i + alpha * (elem D i * fx i + ?X) => assert (KX : X = sum_to (sdim lrs) (fun j => den P i j *
           (sum_to (sdim lrs) (fun j0 => outer V j j0 * sum_to (sdim s) (fun q => den P q j0 * fx q)) +
            -1 * sum_to (sdim lrs) (fun j0 => outer U j j0 * sum_to (sdim s) (fun q => den P q j0 * fx q))))) end.
        { rewrite sum_to_swap. apply sum_to_ext. intros a Ha. rewrite sum_to_swap.
          rewrite (@sum_to_ext (sdim lrs) (fun j => sum_to (sdim s) _) (fun b => den P i a * (outer V a b * sum_to (sdim s) (fun j => den P j b * fx j) + -1 * (outer U a b * sum_to (sdim s) (fun j => den P j b * fx j))))).
          2:{ intros b _. rewrite <- Rmult_assoc, <- Rmult_plus_distr_r, <- !sum_to_scal. apply sum_to_ext. intros; ring. }
          rewrite sum_to_scal. f_equal. rewrite sum_to_plus, sum_to_scal. reflexivity. }
        rewrite KX.
        match goal with |- 1 * _ + alpha * ?A = _ + alpha * (_ + ?B) => assert (KY : A = B) end.
        { apply sum_to_ext. intros j _. f_equal. f_equal. f_equal. apply sum_to_ext. intros b _. f_equal. ring. }
        rewrite KY. ring.
    + destruct C as (HD & HV & HU).
      assert (V0 : exists y0, (if negb (teq OR beta (t0 OR)) then v_addone OR junk alpha (v_mul OR D (v_copy x (v_makenew OR jscal x))) beta y else v_mul OR D (v_addone OR junk alpha x (t0 OR) y)) = y0 /\
                vrep s (fun i => beta * fy i + alpha * (elem D i * fx i)) y0).
      { eexists. split; [reflexivity|]. cbn [R_ops teq t0]. destruct (Req_bool_spec beta 0) as [EB|NB]; cbn [negb].
        - eapply vrep_ext; [|apply mul_r; [apply vrep_self; exact HD|apply (addone_r lg junk Hj alpha 0 s fx (fun _ => 0) x y Vx Ty); lra]].
          intros i _. cbn beta. rewrite EB. ring.
        - eapply vrep_ext; [|apply (addone_r lg junk Hj alpha beta s _ fy _ y (mul_r lg s _ _ _ _ (vrep_self _ _ HD) (copy_r lg s fx x _ Vx (tgt_makenew lg jscal _ _ (vrep_tgt lg _ _ _ Vx)))) Ty Vy)].
          intros i _. cbn beta. ring. }
      destruct V0 as (y0 & -> & V0).
      destruct (upd_lr_ok s V alpha x y0 fx _ HV Vx V0) as (y1 & E1 & V1). unfold upd_lr in E1. rewrite E1. cbn [obind].
      destruct (upd_lr_ok s U (topp OR alpha) x y1 fx _ HU Vx V1) as (y2 & E2 & V2). unfold upd_lr in E2. exists y2. split; [exact E2|].
      eapply vrep_ext; [|exact V2]. intros i Hi. cbn beta. unfold matvec. cbn [den R_ops topp].
      rewrite (@sum_to_ext (sdim s) (fun j => ((if (i =? j)%nat then elem D i else 0) + _) * fx j)
           (fun j => (if (i =? j)%nat then elem D i else 0) * fx j + (outer V i j * fx j + -1 * (outer U i j * fx j)))) by (intros; ring).
      rewrite !sum_to_plus, sum_diag, sum_to_scal by auto. ring.
Qed.
End Main.
