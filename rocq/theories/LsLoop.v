(** A line search that never ends, and concrete histories. *)
From Coq Require Import List Bool ZArith Reals Lra Lia.
From Flocq Require Import Core.Core IEEE754.BinarySingleNaN.
From Verif Require Import Num FilterModel FilterProofs ConvModel PerturbProofs PerturbLevels MuProofs LsModel LsSpec LsProofs LsHist LsReset LsBack LsFind LsRun LsTerm.
Import ListNotations.
Local Open Scope R_scope.

(** default values of the line search's options (IpBacktrackingLineSearch.cpp 33-190), with reduction factor [red] *)
Definition bdflt (red : num) : bopts :=
  BOpts red false (-1) 3 10 (nsub none (nrat 1 10000)) 10 (nrat 1 1000) (nrat 1 100).
Definition nine_tenths : num := nrat 9 10.
Definition pow0 (x _ : num) : num := x.
Definition log0 (x : num) : num := x.

(** min (-x)^1.5 - x from x = 0: the objective can be evaluated only for x <= 0, its
    slope at 0 is -1. One iterate is one number. *)
Definition cliff : @env num num :=
  Env none 0 none (fun _ => nzero) (fun _ => nzero) (fun _ _ => nofZ (-1)) (fun _ _ => none)
      (fun p d al => nadd p (nmul al d))
      (fun _ => Some nzero) (fun p => if nlt nzero p then None else Some nzero)
      (fun _ _ => None) (fun _ _ _ _ => SocFail) (fun _ _ => none) (fun _ => None) (fun _ => None)
      (fun _ _ => false) nzero (fun _ => false) false false true (fun _ => false) (fun _ => RestoFail).
Definition cliff_start : @bls num num := b_initial (bdflt nine_tenths) num nzero false false junk.

Lemma mul_ge a r c : nfin a = true -> nfin r = true -> nfin c = true -> neqb (nmul c r) c = true -> 0 <= key r <= 1 -> 0 <= key a -> key c <= key a ->
  nfin (nmul a r) = true /\ key c <= key (nmul a r) <= key a.
Proof.
  intros Fa Fr Fc E R A C. destruct (nmul_fin a r Fa Fr) as [N K].
  apply neqb_iff in E. destruct E as (_ & _ & E).
  assert (B : key c <= key (nmul a r) <= key a).
  { split.
    - rewrite <- E at 1. rewrite (proj2 (nmul_fin c r Fc Fr)), K. apply fl_le. nra.
    - rewrite K. apply fl_le_key; [apply nfin_nnan; auto|]. nra. }
  split; [|exact B]. apply fin_between with (a := c) (b := a); auto.
Qed.

(** four times the smallest positive number *)
Fixpoint halve (n : nat) (x : num) : num := match n with 0%nat => x | S n => halve n (nmul x (nrat 1 2)) end.
Definition floor_al : num := halve 1072 none.

Lemma floor_facts : nfin floor_al = true /\ nlt nzero floor_al = true /\ neqb (nmul floor_al nine_tenths) floor_al = true /\ nle floor_al none = true /\
  nfin nine_tenths = true /\ nle nzero nine_tenths = true /\ nle nine_tenths none = true.
Proof. repeat split; vm_compute; reflexivity. Qed.

Lemma cliff_step al : nfin al = true -> key floor_al <= key al -> nlt nzero (nadd nzero (nmul al none)) = true.
Proof.
  intros F K. destruct floor_facts as (_ & F0 & _). apply nlt_iff in F0. rewrite key_nzero in F0. destruct F0 as (_ & _ & F0).
  assert (NF : nfin none = true) by reflexivity.
  destruct (nmul_fin al none F NF) as [N1 K1]. rewrite key_none, Rmult_1_r in K1. rewrite (fl_key al) in K1 by (apply nfin_nnan; auto).
  assert (F1 : nfin (nmul al none) = true).
  { apply key_strict_finite; auto. rewrite K1. apply key_finite_lt in F. apply Rabs_def2 in F. lra. }
  assert (FZ : nfin nzero = true) by reflexivity.
  destruct (nadd_fin nzero (nmul al none) FZ F1) as [N2 K2]. rewrite key_nzero, Rplus_0_l in K2. rewrite (fl_key (nmul al none) N1) in K2.
  apply nlt_iff. rewrite key_nzero, K2, K1. repeat split; auto. lra.
Qed.

(** ** the loop goes on as long as every trial point fails *)
Lemma cliff_loop amin d : d = none -> nnan amin = false -> key amin = 0 -> forall fuel al test n err last (s : @bls num num),
  curr s = nzero -> in_wd s = false -> expect_inf s = false -> nfin al = true -> key floor_al <= key al ->
  bt_loop pow0 log0 dflt (bdflt nine_tenths) cliff none amin d fuel al test n err last s = None.
Proof.
  intros Ed NA KA. induction fuel as [|fuel IH]; intros al test n err last s C W X F K; [reflexivity|].
  cbn [bt_loop]. destruct floor_facts as (F0 & F1 & F2 & F3 & F4 & F5 & F6).
  assert (P0 : 0 < key floor_al). { apply nlt_iff in F1. rewrite key_nzero in F1. apply F1. }
  assert (G : ngt al amin = true). { unfold ngt. apply nlt_iff. rewrite KA. repeat split; auto; [apply nfin_nnan; auto|lra]. }
  rewrite G. cbn [orb negb].
  replace (b_every (bdflt nine_tenths)) with false by reflexivity. replace (b_after (bdflt nine_tenths)) with (-1)%Z by reflexivity.
  replace (negb (-1 =? -1)%Z) with false by reflexivity. cbn [orb andb negb].
  set (p := e_trial cliff (curr s) d al).
  assert (EB : e_barr cliff p = None).
  { unfold p. rewrite C, Ed. unfold cliff at 1. cbn [e_barr]. unfold cliff. cbn [e_trial]. rewrite (cliff_step al F K). reflexivity. }
  assert (ET : e_theta cliff p = Some nzero) by reflexivity.
  assert (CK : exists a, a_check pow0 log0 dflt al (e_theta cliff p) (e_barr cliff p) (lsa s) = (a, None)).
  { rewrite EB, ET. unfold a_check. set (s0 := set_thetas _ _ _). clearbody s0.
    assert (L : ngt (theta_max s0) nzero && ngt nzero (theta_max s0) = false).
    { apply andb_false_iff. unfold ngt. destruct (nlt nzero (theta_max s0)) eqn:E1; [right|left; reflexivity].
      destruct (nlt (theta_max s0) nzero) eqn:E2; [|reflexivity]. apply nlt_iff in E1, E2. lra. }
    rewrite L. eexists. reflexivity. }
  destruct CK as [a CK]. rewrite CK. cbv iota beta.
  rewrite ET. cbn [negb]. cbv iota.
  change (in_wd (with_acc s a)) with (in_wd s). change (expect_inf (with_acc s a)) with (expect_inf s). rewrite W, X. cbn [andb].
  destruct (@mul_ge al nine_tenths floor_al F F4 F0 F2) as [M1 M2].
  { apply nle_iff in F5, F6. rewrite key_nzero in F5. rewrite key_none in F6. lra. }
  { lra. } { exact K. }
  apply IH; auto. apply M2.
Qed.

Lemma cliff_amin g t a : neqb (alpha_min pow0 dflt g t a) nzero = true -> nnan (alpha_min pow0 dflt g t a) = false /\ key (alpha_min pow0 dflt g t a) = 0.
Proof. intros H. apply neqb_iff in H. rewrite key_nzero in H. tauto. Qed.

Lemma cliff_forever fuel : snd (find_trial pow0 log0 dflt (bdflt nine_tenths) cliff fuel cliff_start) = LSLoop.
Proof.
  unfold find_trial.
  set (s1 := ft_entry cliff cliff_start).
  assert (E1 : fallback s1 = false) by reflexivity. rewrite E1. cbn [andb].
  destruct (ft_goto cliff s1) as [s2 g] eqn:EG.
  assert (E2 : g = false /\ in_wd s2 = false /\ in_soft s2 = false /\ expect_inf s2 = false /\ wd_short s2 = 0%Z /\ s2 = with_acc s2 (a_init_ls false nzero nzero (nofZ (-1)) (lsa cliff_start)) /\ curr s2 = nzero).
  { injection EG as <- <-. repeat split. }
  clear EG. destruct E2 as (-> & A1 & A2 & A3 & A4 & A5 & A6).
  assert (EW : ft_watch (bdflt nine_tenths) cliff false s2 = (s2, false, false, none)).
  { unfold ft_watch. rewrite A1. cbn [negb andb orb e_tiny cliff]. rewrite A4.
    replace (b_wd_trigger (bdflt nine_tenths) <=? 0)%Z with false by reflexivity. rewrite andb_false_r. reflexivity. }
  rewrite EW. cbn [andb]. cbv iota. unfold ft_body.
  match goal with |- context [in_soft ?s] => set (s3 := s) end.
  change (in_soft s3) with (in_soft s2). rewrite A2.
  assert (L : ls_loop pow0 log0 dflt (bdflt nine_tenths) cliff fuel 2 false none 0 s3 = None).
  { remember 1%nat as one. cbn [ls_loop]. unfold do_bt.
    change (in_wd s3) with (in_wd s2). rewrite A1.
    replace (e_corr cliff (curr s3) none) with (@None (num * num * num)) by reflexivity.
    replace (e_alpha_max cliff (curr s3) none) with none by reflexivity.
    rewrite cliff_loop; auto.
    - apply cliff_amin. change (lsa s3) with (lsa s2). rewrite A5. vm_compute. reflexivity.
    - apply cliff_amin. change (lsa s3) with (lsa s2). rewrite A5. vm_compute. reflexivity.
    - destruct floor_facts as (_ & _ & _ & F3 & _). apply nle_iff in F3. apply F3. }
  rewrite L. reflexivity.
Qed.
