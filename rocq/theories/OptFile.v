From Coq Require Import List ZArith Bool String Lia.
From Verif Require Import Num OptText OptModel OptSpec OptProofs.
Import ListNotations.
Open Scope Z_scope.

Definition G (l : str) (fuel : nat) := let '(c, i) := get (mkIs l false) in skip_loop fuel c i.

Lemma ignore_nl com : forall n r, ~ In 10 com -> Z.of_nat (List.length com) < n -> ignore_l n (com ++ 10 :: r) = mkIs r false.
Proof.
  induction com as [|c com IH]; intros n r H Hn; cbn [app ignore_l List.length] in *.
  - destruct (Z.leb_spec n 0); [lia|]. reflexivity.
  - destruct (Z.leb_spec n 0); [lia|]. destruct (Z.eqb_spec c 10) as [->|N]; [destruct H; left; reflexivity|].
    apply IH; [intros Q; apply H; right; exact Q|lia].
Qed.
Lemma ignore_eof com : forall n, ~ In 10 com -> Z.of_nat (List.length com) < n -> ignore_l n com = mkIs [] true.
Proof.
  induction com as [|c com IH]; intros n H Hn; cbn [ignore_l List.length] in *.
  - destruct (Z.leb_spec n 0); [lia|]. reflexivity.
  - destruct (Z.leb_spec n 0); [lia|]. destruct (Z.eqb_spec c 10) as [->|N]; [destruct H; left; reflexivity|].
    apply IH; [intros Q; apply H; right; exact Q|lia].
Qed.

Lemma skip_unfold f c i : skip_loop f c i = if negb (eof i) && (isspace c || (c =? 35)) then
    match f with O => None | S f => let i1 := if c =? 35 then ignore COMMENT_MAX i else i in let '(c1, i2) := get i1 in skip_loop f c1 i2 end
  else Some (c, i).
Proof. destruct f; reflexivity. Qed.
Lemma token_unfold f inq c i tok : token_loop f inq c i tok = if negb (eof i) && (inq || negb (isspace c)) then
    match f with
    | O => None
    | S f =>
      let '(c1, i1) := get i in
      if inq && (c1 =? 34)
      then let '(c2, i2) := if negb (eof i1) then get i1 else (c1, i1) in token_loop f false c2 i2 (tok ++ [c])
      else token_loop f inq c1 i1 (tok ++ [c])
    end
  else Some (inq, tok, i).
Proof. destruct f; reflexivity. Qed.

Lemma skip_blank b : blank b -> forall rest fuel, (List.length (b ++ rest) <= fuel)%nat ->
  exists fuel', (List.length rest <= fuel')%nat /\ G (b ++ rest) fuel = G rest fuel'.
Proof.
  induction 1 as [|c s Hc _ IH|com s Hcom Hlen _ IH]; intros rest fuel Hf.
  - exists fuel. split; [exact Hf|reflexivity].
  - cbn [app List.length] in Hf. destruct fuel as [|fuel]; [lia|]. destruct (IH rest fuel ltac:(lia)) as (f' & H1 & H2).
    exists f'. split; [exact H1|]. rewrite <- H2. unfold G at 1. cbn [app get eof left_]. rewrite skip_unfold. cbn [eof negb andb].
    rewrite Hc. cbn [orb]. destruct (Z.eqb_spec c 35) as [->|N]; [discriminate|]. reflexivity.
  - cbn [app List.length] in Hf. rewrite <- app_assoc in Hf. rewrite app_length in Hf. cbn [app List.length] in Hf. destruct fuel as [|fuel]; [lia|].
    destruct (IH rest fuel ltac:(lia)) as (f' & H1 & H2). exists f'. split; [exact H1|]. rewrite <- H2. unfold G at 1.
    cbn [app get eof left_]. rewrite <- app_assoc. rewrite skip_unfold. cbn [eof negb andb]. rewrite Z.eqb_refl. rewrite orb_true_r. cbv zeta.
    unfold ignore. cbn [eof left_ app]. rewrite ignore_nl by assumption. reflexivity.
Qed.

Lemma G_token c l fuel : isspace c = false -> c <> 35 -> G (c :: l) fuel = Some (c, mkIs l false).
Proof.
  intros H1 H2. unfold G. cbn [get eof left_]. rewrite skip_unfold. rewrite H1. destruct (Z.eqb_spec c 35); [contradiction|]. rewrite andb_false_r. reflexivity.
Qed.
Lemma G_nil fuel : G [] fuel = Some (255, mkIs [] true).
Proof. unfold G. cbn [get eof left_]. rewrite skip_unfold. reflexivity. Qed.
Lemma G_comment com fuel : ~ In 10 com -> Z.of_nat (List.length com) < COMMENT_MAX -> (S (List.length com) <= fuel)%nat ->
  G (35 :: com) fuel = Some (255, mkIs [] true).
Proof.
  intros H1 H2 Hf. cbn [List.length] in Hf. destruct fuel as [|fuel]; [lia|]. unfold G. cbn [get eof left_]. rewrite skip_unfold.
  cbn [eof negb andb]. rewrite Z.eqb_refl, orb_true_r. cbv zeta. unfold ignore. cbn [eof left_]. rewrite ignore_eof by assumption.
  cbn [get eof]. rewrite skip_unfold. reflexivity.
Qed.

Definition after (rest : str) : stream := match rest with [] => mkIs [] true | _ :: r => mkIs r false end.
Definition sep (rest : str) : Prop := match rest with [] => True | d :: _ => isspace d = true end.

Lemma bare_loop t : forall c rest tok fuel, isspace c = false -> Forall (fun x => isspace x = false) t -> sep rest -> (List.length t < fuel)%nat ->
  token_loop fuel false c (mkIs (t ++ rest) false) tok = Some (false, tok ++ c :: t, after rest).
Proof.
  induction t as [|d t IH]; intros c rest tok fuel Hc Ht Hs Hf; destruct fuel as [|fuel]; cbn [List.length] in Hf; try lia; rewrite token_unfold;
    cbn [eof negb orb andb]; rewrite Hc; cbn [negb].
  - cbn [app]. destruct rest as [|d r]; cbn [get eof left_ after andb].
    + rewrite token_unfold. reflexivity.
    + rewrite token_unfold. cbn [sep] in Hs. rewrite Hs. reflexivity.
  - cbn [app get eof left_ andb]. inversion Ht as [|? ? Hd Ht']; subst. rewrite IH; [|assumption|assumption|assumption|lia].
    rewrite <- app_assoc. reflexivity.
Qed.
Lemma quoted_loop t : forall c rest tok fuel, ~ In 34 t -> sep rest -> (List.length t < fuel)%nat ->
  token_loop fuel true c (mkIs (t ++ 34 :: rest) false) tok = Some (false, tok ++ c :: t, after rest).
Proof.
  induction t as [|d t IH]; intros c rest tok fuel Ht Hs Hf; destruct fuel as [|fuel]; cbn [List.length] in Hf; try lia; rewrite token_unfold;
    cbn [eof negb orb andb app get left_].
  - rewrite Z.eqb_refl. cbn [andb]. destruct rest as [|d r]; cbn [after].
    + rewrite token_unfold. reflexivity.
    + rewrite token_unfold. cbn [sep] in Hs. rewrite Hs. reflexivity.
  - destruct (Z.eqb_spec d 34) as [->|N]; [destruct Ht; left; reflexivity|]. cbn [andb].
    rewrite IH; [|intros Q; apply Ht; right; exact Q|assumption|lia]. rewrite <- app_assoc. reflexivity.
Qed.
Lemma open_loop t : forall c tok fuel, ~ In 34 t -> (List.length t < fuel)%nat ->
  exists tok', token_loop fuel true c (mkIs t false) tok = Some (true, tok', mkIs [] true).
Proof.
  induction t as [|d t IH]; intros c tok fuel Ht Hf; destruct fuel as [|fuel]; cbn [List.length] in Hf; try lia; rewrite token_unfold;
    cbn [eof negb orb andb app get left_].
  - eexists. rewrite token_unfold. cbn [eof negb andb]. destruct (255 =? 34) eqn:E; [discriminate|]. rewrite token_unfold. reflexivity.
  - destruct (Z.eqb_spec d 34) as [->|N]; [destruct Ht; left; reflexivity|]. cbn [andb].
    apply IH; [intros Q; apply Ht; right; exact Q|lia].
Qed.

Lemma rnt_token b t x rest : blank b -> token_text t x -> sep rest -> readnexttoken (mkIs (b ++ x ++ rest) false) = Some (true, t, after rest).
Proof.
  intros Hb Ht Hs. unfold readnexttoken. cbn [left_]. set (fuel := S (List.length (b ++ x ++ rest))).
  destruct (skip_blank b Hb (x ++ rest) fuel ltac:(unfold fuel; lia)) as (f' & _ & E). unfold G in E at 1.
  destruct (get (mkIs (b ++ x ++ rest) false)) as [c0 i0]. rewrite E. clear E.
  destruct Ht as [c t H1 H2 H3 H4|t H1 H2].
  - cbn [app]. rewrite G_token by assumption. destruct (Z.eqb_spec c 34); [contradiction|]. cbn [andb eof].
    rewrite bare_loop; [reflexivity|assumption|assumption|assumption|]. unfold fuel. cbn [app]. rewrite app_length. cbn [List.length]. rewrite app_length. lia.
  - cbn [app]. rewrite G_token by (reflexivity || discriminate). rewrite Z.eqb_refl. cbn [andb eof].
    destruct t as [|c t]; [congruence|]. cbn [app get eof left_]. rewrite <- app_assoc. cbn [app].
    rewrite quoted_loop; [reflexivity|intros Q; apply H2; right; exact Q|assumption|].
    unfold fuel; cbn [app]; rewrite app_length; cbn [List.length]; rewrite !app_length; lia.
Qed.

Lemma rnt_eof : readnexttoken (mkIs [] true) = Some (false, [], mkIs [] true).
Proof. reflexivity. Qed.
Lemma rnt_end text : file [] text -> exists tok i, readnexttoken (mkIs text false) = Some (false, tok, i).
Proof.
  intros H. unfold readnexttoken. cbn [left_]. set (fuel := S (List.length text)). inversion H as [b Hb|b com Hb H1 H2|b t Hb H1| |]; subst.
  - destruct (skip_blank text Hb [] fuel) as (f' & _ & E); [rewrite app_nil_r; unfold fuel; lia|]. rewrite app_nil_r in E. unfold G in E at 1.
    destruct (get (mkIs text false)) as [c0 i0]. rewrite E, G_nil. cbn. eauto.
  - destruct (skip_blank b Hb (35 :: com) fuel) as (f' & Hf & E); [unfold fuel; lia|]. unfold G in E at 1.
    destruct (get (mkIs (b ++ 35 :: com) false)) as [c0 i0]. rewrite E, G_comment by assumption. cbn. eauto.
  - destruct (skip_blank b Hb (34 :: t) fuel) as (f' & Hf & E); [unfold fuel; lia|]. unfold G in E at 1.
    destruct (get (mkIs (b ++ 34 :: t) false)) as [c0 i0]. rewrite E, G_token by (reflexivity || discriminate). rewrite Z.eqb_refl. cbn [andb eof].
    destruct t as [|c t]; cbn [get eof left_]; [eauto|].
    destruct (open_loop t c [] fuel) as (tok' & Q); [intros Q; apply H1; right; exact Q|unfold fuel; rewrite app_length; cbn [List.length]; lia|].
    rewrite Q. cbn [negb]. eauto.
Qed.

Lemma token_text_len t x : token_text t x -> (0 < List.length x)%nat.
Proof. intros [c s|s]; cbn; lia. Qed.

Lemma rnt_next t ts text : file (t :: ts) text -> exists i, readnexttoken (mkIs text false) = Some (true, t, i) /\
  ((ts = [] /\ i = mkIs [] true) \/ exists text', i = mkIs text' false /\ file ts text' /\ (List.length text' < List.length text)%nat).
Proof.
  intros H. inversion H as [| | |b t' x Hb Ht|b t' x c ts' rest Hb Ht Hc Hr]; subst.
  - exists (mkIs [] true). split; [|left; auto]. pose proof (rnt_token b t x [] Hb Ht I) as E. rewrite app_nil_r in E. exact E.
  - exists (mkIs rest false). split; [exact (rnt_token b t x (c :: rest) Hb Ht Hc)|]. right. exists rest. split; [reflexivity|]. split; [assumption|].
    rewrite !app_length. cbn [List.length]. pose proof (token_text_len t x Ht). lia.
Qed.

Lemma read_loop_file r allow : forall fuel s ts text, file ts text -> (List.length text < fuel)%nat ->
  read_loop fuel r s (mkIs text false) allow = Some (set_pairs r s allow ts).
Proof.
  induction fuel as [|fuel IH]; intros s ts text Hf Hl; [lia|]. cbn [read_loop].
  destruct ts as [|t ts].
  - destruct (rnt_end text Hf) as (tok & i & E). rewrite E. reflexivity.
  - destruct (rnt_next t ts text Hf) as (i & E & Q). rewrite E. destruct Q as [(-> & ->)|(text' & -> & Hf' & Hl')].
    + rewrite rnt_eof. reflexivity.
    + destruct ts as [|v ts].
      * destruct (rnt_end text' Hf') as (tok & i & E2). rewrite E2. reflexivity.
      * destruct (rnt_next v ts text' Hf') as (i & E2 & Q2). rewrite E2. cbn [set_pairs].
        destruct (set_from_text r s t v allow) as [s'|]; [|reflexivity]. destruct Q2 as [(-> & ->)|(text'' & -> & Hf'' & Hl'')].
        -- destruct fuel as [|fuel']; [lia|]. cbn [read_loop]. rewrite rnt_eof. reflexivity.
        -- apply IH; [exact Hf''|lia].
Qed.

Lemma read_file r s allow ts text : file ts text -> read_from_stream r s text allow = Some (set_pairs r s allow ts).
Proof. intros H. apply read_loop_file; [exact H|lia]. Qed.

(** ** Termination on every input *)
Definition len (i : stream) : nat := List.length (left_ i).
Lemma get_len i : let '(_, i') := get i in (len i' <= len i)%nat /\ (eof i' = false -> eof i = false /\ (len i' < len i)%nat).
Proof.
  unfold get, len. destruct (eof i) eqn:E; [split; [lia|congruence]|]. destruct (left_ i) as [|c l]; cbn [left_ eof List.length]; split; try lia; try discriminate; auto.
Qed.
Lemma ignore_l_len n : forall l, (len (ignore_l n l) <= List.length l)%nat.
Proof.
  intros l; revert n; induction l as [|c l IH]; intros n; cbn [ignore_l]; unfold len in *; destruct (n <=? 0); cbn [left_ List.length]; try lia.
  destruct (c =? 10); cbn [left_]; [lia|]. specialize (IH (n - 1)). lia.
Qed.
Lemma ignore_len n i : (len (ignore n i) <= len i)%nat /\ (eof (ignore n i) = false -> eof i = false).
Proof.
  unfold ignore. destruct (eof i) eqn:E; [split; [lia|congruence]|]. split; [apply ignore_l_len|reflexivity].
Qed.
Lemma skip_total : forall f c i, (len i < f)%nat -> exists c' i', skip_loop f c i = Some (c', i') /\ (len i' <= len i)%nat /\ (eof i' = false -> eof i = false).
Proof.
  induction f as [|f IH]; intros c i H; [lia|]. rewrite skip_unfold. destruct (negb (eof i) && (isspace c || (c =? 35))) eqn:E.
  - cbv zeta. set (i1 := if c =? 35 then ignore COMMENT_MAX i else i).
    assert (H1 : (len i1 <= len i)%nat /\ (eof i1 = false -> eof i = false)) by (unfold i1; destruct (c =? 35); [apply ignore_len|split; [lia|auto]]).
    pose proof (get_len i1) as H2. destruct (get i1) as [c1 i2]. destruct (eof i2) eqn:E2.
    + exists c1, i2. split; [rewrite skip_unfold, E2; reflexivity|]. split; [lia|congruence].
    + destruct H2 as (_ & H2). destruct (H2 eq_refl) as (H3 & H4). destruct (IH c1 i2 ltac:(lia)) as (c' & i' & Q1 & Q2 & Q3).
      exists c', i'. split; [exact Q1|]. split; [lia|]. intros _. apply H1. exact H3.
  - exists c, i. split; [reflexivity|]. split; [lia|auto].
Qed.
Lemma token_total : forall f q c i tok, (len i < f)%nat -> exists q' tok' i', token_loop f q c i tok = Some (q', tok', i') /\ (len i' <= len i)%nat.
Proof.
  induction f as [|f IH]; intros q c i tok H; [lia|]. rewrite token_unfold. destruct (negb (eof i) && (q || negb (isspace c))) eqn:E.
  - pose proof (get_len i) as H1. destruct (get i) as [c1 i1].
    assert (Stop : forall f q c i tok, eof i = true -> token_loop f q c i tok = Some (q, tok, i)) by (intros f0 q0 c0 i0 t0 E0; rewrite token_unfold, E0; reflexivity).
    destruct (eof i1) eqn:E1.
    + destruct (q && (c1 =? 34)); cbn [negb]; rewrite Stop by exact E1; eexists _, _, _; (split; [reflexivity|lia]).
    + destruct H1 as (_ & H1). destruct (H1 eq_refl) as (_ & H2). destruct (q && (c1 =? 34)).
      * cbn [negb]. pose proof (get_len i1) as H3. destruct (get i1) as [c2 i2]. destruct (IH false c2 i2 (tok ++ [c]) ltac:(lia)) as (q' & t' & i' & Q1 & Q2).
        eexists _, _, _. split; [exact Q1|lia].
      * destruct (IH q c1 i1 (tok ++ [c]) ltac:(lia)) as (q' & t' & i' & Q1 & Q2). eexists _, _, _. split; [exact Q1|lia].
  - eexists _, _, _. split; [reflexivity|lia].
Qed.
Lemma rnt_total i : exists ok tok i', readnexttoken i = Some (ok, tok, i') /\ (ok = true -> (len i' < len i)%nat).
Proof.
  unfold readnexttoken. pose proof (get_len i) as H0. destruct (get i) as [c i0].
  destruct (skip_total (S (List.length (left_ i))) c i0) as (c' & i1 & E1 & L1 & Z1); [unfold len in *; lia|]. rewrite E1.
  destruct ((c' =? 34) && eof i1); [eexists _, _, _; split; [reflexivity|discriminate]|].
  assert (H2 : exists c2 i2, (if c' =? 34 then get i1 else (c', i1)) = (c2, i2) /\ (len i2 <= len i1)%nat /\ (eof i2 = false -> eof i1 = false)).
  { destruct (c' =? 34); [|exists c', i1; split; [reflexivity|split; [lia|auto]]]. pose proof (get_len i1) as H. destruct (get i1) as [c2 i2].
    exists c2, i2. split; [reflexivity|]. split; [lia|]. intros Q. destruct H as (_ & H). apply H; exact Q. }
  destruct H2 as (c2 & i2 & E2 & L2 & Z2). rewrite E2. destruct (eof i2) eqn:Ee; [eexists _, _, _; split; [reflexivity|discriminate]|].
  destruct (token_total (S (List.length (left_ i))) (c' =? 34) c2 i2 []) as (q' & t' & i3 & E3 & L3); [unfold len in *; lia|]. rewrite E3.
  eexists _, _, _. split; [reflexivity|]. intros _. assert (Z0 : eof i0 = false) by (apply Z1, Z2; reflexivity). destruct H0 as (_ & H0). destruct (H0 Z0). lia.
Qed.
Lemma read_loop_total r allow : forall fuel s i, (len i < fuel)%nat -> read_loop fuel r s i allow <> None.
Proof.
  induction fuel as [|fuel IH]; intros s i H; [lia|]. cbn [read_loop]. destruct (rnt_total i) as (ok & tok & i1 & E & L). rewrite E.
  destruct ok; [|discriminate]. specialize (L eq_refl). destruct (rnt_total i1) as (ok2 & tok2 & i2 & E2 & L2). rewrite E2.
  destruct ok2; [|discriminate]. specialize (L2 eq_refl). destruct (set_from_text r s tok tok2 allow); [|discriminate]. apply IH. lia.
Qed.
Lemma read_terminates r s text allow : read_from_stream r s text allow <> None.
Proof. apply read_loop_total. unfold len. cbn. lia. Qed.
