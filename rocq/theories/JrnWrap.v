From Coq Require Import List Bool Arith ZArith String Ascii Lia.
From Verif Require Import JrnModel JrnSpec JrnProofs.
Import ListNotations.
Local Open Scope list_scope.

Definition no_nul (t : list ascii) : Prop := ~ In NUL t.
Lemma cstr_app a b : no_nul a -> cstr (a ++ NUL :: b) = a.
Proof.
  unfold no_nul. induction a as [|c a IH]; intros N; cbn [app cstr].
  - rewrite Ascii.eqb_refl. reflexivity.
  - destruct (Ascii.eqb_spec c NUL) as [->|]; [cbn in N; tauto|]. f_equal. apply IH. cbn in N. tauto.
Qed.
Lemma set_nth_app {A} (a b : list A) (c d : A) : set_nth (List.length a) c (a ++ d :: b) = a ++ c :: b.
Proof. induction a; cbn; auto. f_equal; auto. Qed.
Lemma bset_app a b c d i : i = List.length a -> bset (a ++ d :: b) i c = Some (a ++ c :: b).
Proof.
  intros ->. unfold bset. destruct (Nat.ltb_spec (List.length a) (List.length (a ++ d :: b))) as [L|L].
  - rewrite set_nth_app. reflexivity.
  - rewrite app_length in L. cbn in L. lia.
Qed.
(** the last space seen *)
Definition word_start (q lw : nat) (chunk : list ascii) (lw' : nat) : Prop :=
  (no_space chunk /\ lw' = lw) \/
  (exists w v, chunk = w ++ " "%char :: v /\ no_space v /\ lw' = S (q + List.length w)).
Lemma word_start_cons q lw c chunk lw' :
  word_start (S q) (if Ascii.eqb c " " then S q else lw) chunk lw' -> word_start q lw (c :: chunk) lw'.
Proof.
  intros [[N E]|(w & v & E1 & N & E2)].
  - destruct (Ascii.eqb_spec c " ") as [->|NE].
    + right. exists [], chunk. split; auto. split; auto. rewrite E. cbn. lia.
    + left. split; auto. intros [X|X]; auto.
  - right. exists (c :: w), v. subst chunk. split; auto. split; auto. cbn. lia.
Qed.
Lemma copy_spec k : forall line q lw done rest,
  k < List.length rest ->
  exists lw' rest', 
    let chunk := firstn k (skipn q line) in
    copy_chars k line q lw (List.length done) (done ++ rest) =
      Some (q + List.length chunk, lw', List.length done + List.length chunk, (done ++ chunk) ++ rest') /\
    List.length chunk + List.length rest' = List.length rest /\ word_start q lw chunk lw'.
Proof.
  induction k as [|k IH]; intros line q lw done rest L; cbn zeta.
  - exists lw, rest. cbn. rewrite !Nat.add_0_r, app_nil_r. repeat split; auto. left. split; auto. intros [].
  - cbn [copy_chars]. destruct (nth_error line q) as [c|] eqn:N.
    + assert (SK : skipn q line = c :: skipn (S q) line).
      { clear -N. revert q N. induction line as [|x line IH]; intros [|q] N; cbn in *; try discriminate; auto. injection N as ->. auto. }
      rewrite SK. cbn [firstn]. destruct rest as [|d rest]; [cbn in L; lia|]. rewrite (bset_app done rest c d) by reflexivity.
      replace (done ++ c :: rest) with ((done ++ [c]) ++ rest) by (rewrite <- app_assoc; reflexivity).
      replace (S (List.length done)) with (List.length (done ++ [c])) by (rewrite app_length; cbn; lia).
      cbn in L. destruct (IH line (S q) (if Ascii.eqb c " " then S q else lw) (done ++ [c]) rest) as (lw' & rest' & E & LL & W); [lia|].
      cbn zeta in *. exists lw', rest'. rewrite E. rewrite app_length. cbn [List.length]. rewrite <- (app_assoc done [c]). cbn [app].
      split; [|split; [lia|apply word_start_cons; auto]]. 
      match goal with |- Some (?a, _, ?b, ?c) = Some (?a', _, ?b', ?c') =>
        replace a with a' by lia; replace b with b' by lia; replace c with c' by (rewrite <- !app_assoc; reflexivity); reflexivity end.
    + apply nth_error_None in N. rewrite skipn_all2 by auto. exists lw, rest. rewrite firstn_nil. cbn. rewrite !Nat.add_0_r, app_nil_r.
      repeat split; auto. left. split; auto. intros [].
Qed.
Lemma put_indent_spec n : forall done rest, n <= List.length rest ->
  put_indent (List.length done) n (done ++ rest) = Some ((done ++ repeat " "%char n) ++ skipn n rest).
Proof.
  induction n; intros done rest L; cbn [put_indent repeat skipn].
  - rewrite app_nil_r. reflexivity.
  - destruct rest as [|d rest]; [cbn in L; lia|]. rewrite (bset_app done rest " "%char d) by reflexivity.
    replace (done ++ " "%char :: rest) with ((done ++ [" "%char]) ++ rest) by (rewrite <- app_assoc; reflexivity).
    replace (S (List.length done)) with (List.length (done ++ [" "%char])) by (rewrite app_length; cbn; lia).
    rewrite IHn by (cbn in L; lia). rewrite <- (app_assoc done [" "%char]). reflexivity.
Qed.
Lemma nn_app a b : no_nul (a ++ b) <-> no_nul a /\ no_nul b.
Proof. unfold no_nul. rewrite in_app_iff. tauto. Qed.
Lemma ns_app a b : no_space (a ++ b) <-> no_space a /\ no_space b.
Proof. unfold no_space. rewrite in_app_iff. tauto. Qed.
Lemma snoc_ex {A} (l : list A) : l <> [] -> exists a c, l = a ++ [c].
Proof. intros N. destruct (exists_last N) as (a & c & ->). eauto. Qed.

(** one round of the loop *)
Section Round.
Variables (indent max : nat) (line : list ascii) (size : nat).
Hypothesis NN : no_nul line.
Hypothesis M : 2 <= max.
Hypothesis SZ : indent + max < size.

(** what the line written is, and which text is left *)
Definition round_spec (t : list ascii) (p : nat) (w : list ascii) (p' : nat) : Prop :=
  p < p' <= List.length line /\
  forall l, wrapped max (skipn p' line) l -> wrapped max t ((w, true) :: l).

Lemma round_ok (first : bool) p ind rest :
  List.length (ind ++ rest) = size -> no_nul ind -> (if first then ind = [] else ind = repeat " "%char indent) ->
  p < List.length line ->
  let t := skipn p line in
  (List.length t <= max /\ round indent max line p p (List.length ind) first (ind ++ rest) = Some ((ind ++ t, false), None)) \/
  (exists w p' rest', round_spec t p w p' /\
     round indent max line p p (List.length ind) first (ind ++ rest) =
       Some ((ind ++ w, true), Some (p', p', indent, false, repeat " "%char indent ++ rest')) /\
     List.length (repeat " "%char indent ++ rest') = size).
Proof.
  intros LB NI FI LP t. assert (LI : List.length ind <= indent) by (destruct first; subst ind; rewrite ?repeat_length; cbn; lia).
  rewrite app_length in LB.
  destruct (copy_spec max line p p ind rest) as (lw & rest1 & E & LR & W); [lia|]. cbn zeta in E. fold t in E, LR, W.
  unfold round. rewrite E. set (chunk := firstn max t) in *.
  assert (LT : List.length t = List.length line - p) by (unfold t; apply skipn_length).
  assert (LC : List.length chunk = Nat.min max (List.length t)) by (unfold chunk; apply firstn_length).
  assert (NT : no_nul t).
  { intros X. apply NN. unfold t in X. rewrite <- (firstn_skipn p line). apply in_or_app. auto. }
  assert (TC : t = chunk ++ skipn max t) by (unfold chunk; symmetry; apply firstn_skipn).
  assert (NC : no_nul chunk) by (rewrite TC in NT; apply nn_app in NT; tauto).
  destruct rest1 as [|d rest1]; [cbn in LR; lia|]. cbn in LR.
  destruct (Nat.leb_spec (List.length t) max) as [LE|GT].
  - left. split; auto. destruct (Nat.eqb_spec (p + List.length chunk) (List.length line)) as [_|X]; [|lia].
    rewrite bset_app by (rewrite app_length; reflexivity). rewrite cstr_app by (apply nn_app; auto).
    assert (chunk = t) as ->; auto. unfold chunk. apply firstn_all2. auto.
  - right. assert (LC' : List.length chunk = max) by lia. rewrite LC' in *.
    destruct (Nat.eqb_spec (p + max) (List.length line)) as [X|_]; [lia|].
    (* the part after the choice of the line end *)
    assert (FIN : forall w buf1 p', round_spec t p w p' -> List.length buf1 = size ->
              (exists tail, buf1 = (ind ++ w) ++ NUL :: tail) -> no_nul w ->
              exists rest', (match (if first then put_indent 0 indent buf1 else Some buf1) with
                       | Some buf => Some (cstr buf1, true, Some (p', p', indent, false, buf)) | None => None end) =
                       Some ((ind ++ w, true), Some (p', p', indent, false, repeat " "%char indent ++ rest')) /\
                List.length (repeat " "%char indent ++ rest') = size).
    { intros w buf1 p' _ L1 (tail & E1) NW.
      assert (C : cstr buf1 = ind ++ w) by (rewrite E1; apply cstr_app, nn_app; auto). rewrite C.
      destruct first; subst ind.
      - change buf1 with ([] ++ buf1). change 0%nat with (List.length (@nil ascii)). rewrite put_indent_spec by lia. cbn [app].
        eexists. split; [reflexivity|]. rewrite app_length, repeat_length, skipn_length. lia.
      - exists (w ++ NUL :: tail). rewrite E1, <- app_assoc in *. split; auto. }
    assert (SKP : forall a b, t = a ++ b -> skipn (p + List.length a) line = b).
    { intros a b TE. transitivity (skipn (List.length a) (skipn p line)).
      - clear. revert line. generalize (List.length a) as k. induction p as [|q IH]; intros k l; [reflexivity|]. destruct l; [cbn; rewrite skipn_nil; auto|]. apply IH.
      - fold t. rewrite TE. rewrite skipn_app, skipn_all, Nat.sub_diag. reflexivity. }
    assert (NX : exists c0 t0, skipn max t = c0 :: t0 /\ nth (p + max) line NUL = c0).
    { destruct (skipn max t) as [|c0 t0] eqn:SK.
      - assert (List.length (skipn max t) = 0) by (rewrite SK; auto). rewrite skipn_length in H. lia.
      - exists c0, t0. split; auto. assert (SL : skipn (p + max) line = c0 :: t0).
        { rewrite <- LC'. apply SKP. rewrite TC at 1. reflexivity. }
        rewrite <- (firstn_skipn (p + max) line), SL, app_nth2; rewrite firstn_length; [|lia].
        replace (p + max - Nat.min (p + max) (List.length line)) with 0 by lia. reflexivity. }
    destruct NX as (c0 & t0 & TS & NTH). rewrite TS in TC.
    destruct W as [[NS ->]|(w & v & CE & NV & ->)].
    + rewrite Nat.eqb_refl, NTH. destruct (Ascii.eqb_spec c0 " ") as [->|NE].
      * (* a word fills the line *)
        rewrite bset_app by (rewrite app_length; lia).
        assert (RS : round_spec t p chunk (S (p + max))).
        { split; [lia|]. intros l WL. apply (W_exact max chunk t0 t l); auto.
          replace (S (p + max)) with (p + List.length (chunk ++ [" "%char])) in WL by (rewrite app_length; cbn; lia).
          rewrite (SKP (chunk ++ [" "%char]) t0) in WL by (rewrite <- app_assoc; auto). auto. }
        destruct (FIN chunk ((ind ++ chunk) ++ NUL :: rest1) (S (p + max)) RS) as (rest' & F1 & F2); eauto.
        { rewrite !app_length. cbn. lia. }
        exists chunk, (S (p + max)), rest'. split; auto.
      * (* split with a hyphen *)
        destruct (snoc_ex chunk) as (w & c1 & CE); [intros Z; rewrite Z in LC'; cbn in LC'; lia|].
        assert (LW : S (List.length w) = max) by (rewrite CE, app_length in LC'; cbn in LC'; lia).
        replace (List.length ind + max) with (S (List.length ind + List.length w)) by lia.
        rewrite CE. replace ((ind ++ w ++ [c1]) ++ d :: rest1) with ((ind ++ w) ++ c1 :: d :: rest1) by (rewrite <- !app_assoc; reflexivity).
        rewrite bset_app by (rewrite app_length; reflexivity).
        replace ((ind ++ w) ++ "-"%char :: d :: rest1) with ((ind ++ w ++ ["-"%char]) ++ d :: rest1) by (rewrite <- !app_assoc; reflexivity).
        rewrite bset_app by (rewrite !app_length; cbn; lia).
        replace (p + max) with (S (p + List.length w)) by lia.
        assert (TT : t = w ++ c1 :: c0 :: t0) by (rewrite TC, CE, <- app_assoc; reflexivity).
        assert (RS : round_spec t p (w ++ ["-"%char]) (p + List.length w)).
        { split; [lia|]. intros l WL. rewrite (SKP w (c1 :: c0 :: t0)) in WL by auto.
          apply (W_split max w c1 c0 t0 t l); auto.
          rewrite CE in NS. apply ns_app in NS as [N1 N2]. apply ns_app. split; auto. intros [X|[X|[]]]; [apply N2; cbn; auto|congruence]. }
        destruct (FIN (w ++ ["-"%char]) ((ind ++ w ++ ["-"%char]) ++ NUL :: rest1) (p + List.length w) RS) as (rest' & F1 & F2); eauto 7.
        { rewrite !app_length. cbn. lia. }
        { apply nn_app. split; [|intros [X|[]]; discriminate X]. rewrite CE in NC. apply nn_app in NC. tauto. }
    + (* broken at the last space *)
      assert (LW : List.length w + S (List.length v) = max) by (rewrite CE, app_length in LC'; cbn in LC'; lia).
      destruct (Nat.eqb_spec (S (p + List.length w)) p) as [X|_]; [lia|].
      destruct (Nat.ltb_spec (p + max - S (p + List.length w)) (List.length ind + max)) as [_|X]; [|lia].
      replace (List.length ind + max - (p + max - S (p + List.length w)) - 1) with (List.length (ind ++ w)) by (rewrite app_length; lia).
      rewrite CE. replace ((ind ++ w ++ " "%char :: v) ++ d :: rest1) with ((ind ++ w) ++ " "%char :: (v ++ d :: rest1)) by (rewrite <- !app_assoc; reflexivity).
      rewrite bset_app by reflexivity.
      assert (TT : t = w ++ " "%char :: (v ++ c0 :: t0)) by (rewrite TC, CE, <- app_assoc; reflexivity).
      assert (RS : round_spec t p w (S (p + List.length w))).
      { split; [lia|]. intros l WL.
        replace (S (p + List.length w)) with (p + List.length (w ++ [" "%char])) in WL by (rewrite app_length; cbn; lia).
        rewrite (SKP (w ++ [" "%char]) (v ++ c0 :: t0)) in WL by (rewrite <- app_assoc; auto).
        apply (W_space max w (v ++ c0 :: t0) t l); auto; [lia|].
        replace (max - List.length w - 1) with (List.length v) by lia. rewrite firstn_app, firstn_all, Nat.sub_diag, app_nil_r. auto. }
      destruct (FIN w ((ind ++ w) ++ NUL :: v ++ d :: rest1) (S (p + List.length w)) RS) as (rest' & F1 & F2); eauto.
      { rewrite !app_length. cbn. rewrite app_length. cbn. lia. }
      { rewrite CE in NC. apply nn_app in NC. tauto. }
      exists w, (S (p + List.length w)), rest'. split; auto.
Qed.

Lemma rounds_ok n : forall p rest out fuel, List.length line - p <= n -> n <= fuel -> p <= List.length line ->
  List.length (repeat " "%char indent ++ rest) = size ->
  exists l, wrapped max (skipn p line) l /\
    over_lines fuel indent max line p p indent false (repeat " "%char indent ++ rest) out =
      Done (out ++ map (fun q => (repeat " "%char indent ++ fst q, snd q)) l).
Proof.
  induction n as [|n IH]; intros p rest out fuel L F P LB.
  - exists []. rewrite skipn_all2 by lia. split; [constructor|]. destruct fuel; cbn [over_lines];
    (destruct (Nat.ltb_spec p (List.length line)); [lia|cbn; rewrite app_nil_r; reflexivity]).
  - destruct (Nat.ltb_spec p (List.length line)) as [LT|GE].
    + destruct fuel as [|fuel]; [lia|]. cbn [over_lines]. destruct (Nat.ltb_spec p (List.length line)) as [_|]; [|lia].
      assert (NI : no_nul (repeat " "%char indent)) by (intros X; apply repeat_spec in X; discriminate).
      destruct (round_ok false p (repeat " "%char indent) rest LB NI eq_refl LT) as [[S1 E]|(w & p' & rest' & [RP RS] & E & L')];
        rewrite repeat_length in E; rewrite E.
      * exists [(skipn p line, false)]. split; [|reflexivity]. constructor; auto. intros Z.
        assert (List.length (skipn p line) = 0) by (rewrite Z; auto). rewrite skipn_length in H. lia.
      * destruct (IH p' rest' (out ++ [(repeat " "%char indent ++ w, true)]) fuel) as (l & WL & EL); try lia; auto.
        exists ((w, true) :: l). split; [apply RS; auto|]. rewrite EL, <- app_assoc. reflexivity.
    + exists []. rewrite skipn_all2 by lia. split; [constructor|]. destruct fuel; cbn [over_lines];
      (destruct (Nat.ltb_spec p (List.length line)); [lia|cbn; rewrite app_nil_r; reflexivity]).
Qed.
Lemma over_lines_ok fuel buf : List.length line <= fuel -> List.length buf = size ->
  exists l, wrapped max line l /\ print_over_lines fuel indent max line buf = Done (indented indent l).
Proof.
  intros F LB. unfold print_over_lines. destruct (Nat.ltb_spec 0 (List.length line)) as [LT|GE].
  - destruct fuel as [|fuel]; [lia|]. cbn [over_lines]. destruct (Nat.ltb_spec 0 (List.length line)) as [_|]; [|lia].
    assert (NI : no_nul []) by (intros []).
    destruct (round_ok true 0 [] buf LB NI eq_refl LT) as [[S1 E]|(w & p' & rest' & [RP RS] & E & L')];
      cbn [List.length app] in E; rewrite E; cbn [skipn] in *.
    + exists [(line, false)]. split; [|reflexivity]. constructor; auto. intros Z. rewrite Z in LT. cbn in LT. lia.
    + destruct (rounds_ok fuel p' rest' [(w, true)] fuel) as (l & WL & EL); try lia; auto.
      exists ((w, true) :: l). split; [apply RS; auto|]. cbn [app]. rewrite EL. reflexivity.
  - assert (Z : line = []) by (apply length_zero_iff_nil; lia). exists []. split; [rewrite Z; constructor|].
    destruct fuel; cbn [over_lines]; (destruct (Nat.ltb_spec 0 (List.length line)); [lia|reflexivity]).
Qed.
End Round.
