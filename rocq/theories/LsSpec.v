(** Specification of the filter line search: what a trial point must satisfy,
    stated with reference values, limits and a list of forbidden corners. *)
From Coq Require Import List Bool ZArith Reals.
From Verif Require Import Num FilterModel LsModel.
Import ListNotations.
Set Implicit Arguments.

Section Rule.
Variables (pw : num -> num -> num) (log10 : num -> num) (o : aopts).

(** a <= b up to ten machine epsilons relative to |base| *)
Definition about_le (a b base : num) : Prop :=
  nle (nsub a b) (nmul (nmul (nofZ 10) (nrat 1 (2 ^ 52))) (nabs base)) = true.

(** the slope of the barrier function; a tiny positive one at a feasible point
    counts as minus machine epsilon *)
Definition tiny_positive (rt g : num) : Prop :=
  neqb rt nzero = true /\ nlt nzero g = true /\ nlt g (nmul (nofZ 100) (nrat 1 (2 ^ 52))) = true.
Definition is_slope (rt g g' : num) : Prop :=
  (tiny_positive rt g -> g' = nopp (nrat 1 (2 ^ 52))) /\ (~ tiny_positive rt g -> g' = g).

Definition switching (al rt g : num) : Prop :=
  nlt g nzero = true /\ nlt (nmul (a_delta o) (pw rt (a_s_theta o))) (nmul al (pw (nopp g) (a_s_phi o))) = true.
Definition armijo_cond (al rb g ba : num) : Prop :=
  about_le (nsub ba rb) (nmul (nmul (a_eta o) al) g) rb.
Definition increases_too_fast (rb ba : num) : Prop :=
  nlt rb ba = true /\
  nlt (nadd (a_obj_max_inc o) (if nlt (nofZ 10) (nabs rb) then log10 (nabs rb) else nofZ 1)) (log10 (nsub ba rb)) = true.
Definition sufficient_decrease (rt rb th ba : num) : Prop :=
  about_le th (nmul (nsub (nofZ 1) (a_gamma_theta o)) rt) rt \/
  about_le (nsub ba rb) (nmul (nopp (a_gamma_phi o)) rt) rb.
(** [F]: corners (barrier, violation) *)
Definition outside_corners (F : list (num * num)) (th ba : num) : Prop :=
  forall pb pt, In (pb, pt) F -> nle ba pb = true \/ nle th pt = true.

(** The rule for a trial point (th, ba) and step size al: reference values rt, rb,
    slope g, limits tmin, tmax *)
Definition filter_rule (al rt rb g tmin tmax : num) (F : list (num * num)) (th ba : num) : Prop :=
  ~ (nlt nzero tmax = true /\ nlt tmax th = true) /\
  (nlt nzero al = true /\ switching al rt g /\ nle rt tmin = true -> armijo_cond al rb g ba) /\
  (~ (nlt nzero al = true /\ switching al rt g /\ nle rt tmin = true) ->
     ~ increases_too_fast rb ba /\ sufficient_decrease rt rb th ba) /\
  outside_corners F th ba.

(** the corner a reference point forbids *)
Definition corner (rt rb : num) : num * num :=
  (nsub rb (nmul (a_gamma_phi o) rt), nmul (nsub (nofZ 1) (a_gamma_theta o)) rt).

(** the limits: fixed at the first check of a solve *)
Definition tmax_for (rt : num) : num := nmul (a_theta_max_fact o) (nmax (nofZ 1) rt).
Definition tmin_for (rt : num) : num := nmul (a_theta_min_fact o) (nmax (nofZ 1) rt).

(** ** Histories seen from outside: what was called and what was answered.
    [g_ref], [g_wd]: reference values (violation, barrier, slope) of the line search and
    of the watchdog;
    [g_first]: the reference violation at the first check of the solve;
    [g_forbid]: the reference points entered since the last reset. *)
Record ghost := Ghost { g_ref : num * num * num; g_wd : num * num * num; g_first : option num; g_forbid : list (num * num) }.
Definition g_step (x : ghost) (c : aop) (r : aout) : ghost :=
  match c, r with
  | AInit, _ => Ghost (g_ref x) (g_wd x) None []
  | AReset, _ => Ghost (g_ref x) (g_wd x) (g_first x) []
  | AInitLS false t b g, _ => Ghost (t, b, g) (g_wd x) (g_first x) (g_forbid x)
  | AInitLS true _ _ _, _ | AStopWD, _ => Ghost (g_wd x) (g_wd x) (g_first x) (g_forbid x)
  | AStartWD t b g, _ => Ghost (g_ref x) (t, b, g) (g_first x) (g_forbid x)
  | ACheck _ (Some _) _, OCheck q =>
      Ghost (g_ref x) (g_wd x) (match g_first x with None => Some (fst (fst (g_ref x))) | f => f end)
            (match q with Some (_, true) => [] | _ => g_forbid x end)
  | AUpdate _ _ _, OUpdate true | APrepareResto _, _ => Ghost (g_ref x) (g_wd x) (g_first x) (g_forbid x ++ [fst (g_ref x)])
  | _, _ => x
  end.

Definition a_next (s : acc) (c : aop) : acc := fst (a_step pw log10 o s c).
Definition a_out (s : acc) (c : aop) : aout := snd (a_step pw log10 o s c).
Fixpoint a_run (s : acc) (l : list aop) : acc := match l with [] => s | c :: l => a_run (a_next s c) l end.
Fixpoint a_outs (s : acc) (l : list aop) : list aout := match l with [] => [] | c :: l => a_out s c :: a_outs (a_next s c) l end.
Fixpoint g_run (x : ghost) (s : acc) (l : list aop) : ghost :=
  match l with [] => x | c :: l => g_run (g_step x c (a_out s c)) (a_next s c) l end.

(** options as registered: gamma_theta in (0,1), the factors positive; reference values given to the acceptor are finite *)
Definition aop_wf (c : aop) : Prop :=
  match c with
  | AInitLS false t b _ | AStartWD t b _ => nfin t = true /\ nfin b = true
  | _ => True
  end.
Definition aopts_wf : Prop :=
  nfin (a_gamma_phi o) = true /\ nfin (a_gamma_theta o) = true /\ (0 <= key (a_gamma_theta o) <= 1)%R /\ nfin (a_theta_max_fact o) = true /\ (0 < key (a_theta_max_fact o))%R /\
  nfin (a_theta_min_fact o) = true /\ (0 < key (a_theta_min_fact o))%R.
(** the start of a history: any values in the reference fields (not initialised by
    the constructor), finite *)
Definition g_start (s : acc) : ghost :=
  Ghost (ref_theta s, ref_barr s, ref_gbd s) (wd_theta s, wd_barr s, wd_gbd s) None [].
Definition acc_fin (s : acc) : Prop :=
  nfin (ref_theta s) = true /\ nfin (ref_barr s) = true /\ nfin (wd_theta s) = true /\ nfin (wd_barr s) = true.

(** counting *)
Definition is_accept (r : aout) : bool := match r with OCheck (Some (true, _)) => true | _ => false end.
Definition is_fired (r : aout) : bool := match r with OCheck (Some (_, true)) => true | _ => false end.
Definition count (f : aout -> bool) (l : list aout) : Z := Z.of_nat (length (List.filter f l)).
End Rule.

(** ** Histories of the line search: for every call of FindAcceptableTrialPoint the
    iterate at which it was made, its environment and its result; the last call first. *)
Section Log.
Variables (pw : num -> num -> num) (log10 : num -> num) (ao : aopts) (bo : bopts) (I D : Type).
Record call := Call { k_at : I; k_env : @env I D; k_res : @lsres I }.
Definition b_do (x : @bls I D * list call) (c : @bop I D) : @bls I D * list call :=
  let '(s, log) := x in
  (fst (b_step pw log10 ao bo s c),
   match c, snd (b_step pw log10 ao bo s c) with BFind e _, Some r => Call (curr s) e r :: log | _, _ => log end).
Definition b_hist (s : @bls I D) (l : list (@bop I D)) : @bls I D * list call := fold_left b_do l (s, []).
(** the algorithm goes on after the call *)
Definition goes_on (k : call) : bool := match k_res k with LSTrial _ _ | LSSkipped => true | _ => false end.
Definition watchdog_step (k : call) : bool := match k_res k with LSTrial _ ByWatchdog => true | _ => false end.
Definition soft_step (k : call) : bool := match k_res k with LSTrial _ (BySoft false) => true | _ => false end.
Fixpoint take_while (f : call -> bool) (l : list call) : list call :=
  match l with [] => [] | k :: l => if f k then k :: take_while f l else [] end.
(** the reference values the line search takes at an iterate *)
Definition values_at (e : @env I D) (p : I) : num * num * num := (e_ctheta e p, e_cbarr e p, e_gbd e p (e_delta e)).
End Log.
