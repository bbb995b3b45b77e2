(** Model of the adaptive barrier parameter update and of its mu oracles.
    /repo/src/Algorithm/IpAdaptiveMuUpdate.cpp (all of it but RegisterOptions and output),
    IpLoqoMuOracle.cpp, IpProbingMuOracle.cpp, IpQualityFunctionMuOracle.cpp.

    Numbers are the reals: rounding, NaN and overflow are not modelled. [std::pow] of two
    Numbers is an arbitrary function [pw]. The iterate is an element of an arbitrary type [pt];
    the quantities IpCq() computes from it are functions of it (C57-C62 are about those). What
    an oracle returns is an arbitrary function per call; the oracles themselves are below. *)
From Coq Require Import Reals List Bool Arith.
Import ListNotations.
Open Scope R_scope.
Set Implicit Arguments.

(** IpAdaptiveMuUpdate.hpp 92-97 *)
Inductive glob := KKT_ERROR | FILTER_OBJ_CONSTR | NEVER_MONOTONE_MODE.

(** The options read in InitializeImpl (159-233). [o_mumax]: the value of mu_max if the user
    gave one; [o_mumin], [o_mumin_user]: the value of mu_min (the default if the user gave
    none) and whether the user gave one; [o_resto]: prefix == "resto."; [o_hasfix]:
    IsValid(fix_mu_oracle_). *)
Record opts := Opts {
  o_mumaxfact : R; o_mumax : option R; o_taumin : R; o_safe : R;
  o_redfact : R; o_rediters : nat; o_glob : glob; o_maxmargin : R; o_marginfact : R;
  o_restore : bool; o_initfact : R; o_btol : R; o_lin : R; o_pow : R;
  o_mumin : R; o_mumin_user : bool; o_resto : bool; o_mutarget : R; o_hasfix : bool }.

Section Update.
Variable pt : Type.
(** IpCq(): curr_avrg_compl, curr_dual_infeasibility(NORM_1) / n_dual,
    curr_primal_infeasibility(NORM_1) / n_pri (0 if n_pri = 0), quality_function_pd_system()
    (see [kkt_error] below), curr_nlp_error, curr_f, curr_constraint_violation, the number of
    bound multipliers; curr_barrier_error depends on the barrier parameter as well *)
Record cq := Cq { q_avrg : pt -> R; q_dinf : pt -> R; q_pinf : pt -> R; q_kkt : pt -> R;
                  q_nlp : pt -> R; q_f : pt -> R; q_theta : pt -> R; q_nbounds : pt -> nat;
                  q_berr : pt -> R -> R }.

(** The members of AdaptiveMuUpdate that change, and of IpData(): FreeMuMode, curr_mu,
    curr_tau, curr *)
Record st := St {
  s_mumin : R; s_mumax : R; s_idi : R; s_ipi : R; s_refs : list R;
  s_chk : bool; s_nob : bool; s_filter : list (R * R); s_free : bool; s_acc : option pt;
  s_mu : R; s_tau : R; s_cur : pt }.

(** What one call of UpdateBarrierParameter sees: the current iterate, IpData().tol(), the
    absolute value of the scaled compl_inf_tol, tiny_step_flag, CheckSkippedLineSearch(), and
    the answers of the two oracles (None: CalculateMu returned false) *)
Record call := Call { c_pt : pt; c_tol : R; c_ctol : R; c_tiny : bool; c_skip : bool;
                      c_free : R -> R -> option R; c_fix : R -> R -> option R }.

(** Effects outside: linesearch_->Reset(), linesearch_->SetRigorousLineSearch(true),
    Append_info_string, set_trial followed by AcceptTrialPoint *)
Inductive event := EReset | ERigorous | EInfoM | EInfoF | EAccept (p : pt).

(** How a call ends: it returns true or false; TINY_STEP_DETECTED is thrown; or the behaviour
    is undefined (null accepted_point_ dereferenced, first element of an empty std::list) *)
Inductive outcome :=
  | Ret (b : bool) (s : st) (ev : list event)
  | Tiny (s : st)
  | Undef.

Variable pw : R -> R -> R.
Variable q : cq.
Variable o : opts.

(** InitializeImpl (159-249); the initial iterate is whatever IpData holds. mu_max_ = -1 if
    the user gave none. *)
Definition initialize (p : pt) : st :=
  St (if o_mumin_user o then o_mumin o else if o_resto o then 100 * o_mumin o else o_mumin o)
     (match o_mumax o with Some m => m | None => -1 end)
     (-1) (-1) [] false false [] true None 1 0 p.

(** Setters, one per member that is assigned *)
Definition set_mumin s v := St v (s_mumax s) (s_idi s) (s_ipi s) (s_refs s) (s_chk s) (s_nob s) (s_filter s) (s_free s) (s_acc s) (s_mu s) (s_tau s) (s_cur s).
Definition set_mumax s v := St (s_mumin s) v (s_idi s) (s_ipi s) (s_refs s) (s_chk s) (s_nob s) (s_filter s) (s_free s) (s_acc s) (s_mu s) (s_tau s) (s_cur s).
Definition set_init s d p := St (s_mumin s) (s_mumax s) d p (s_refs s) (s_chk s) (s_nob s) (s_filter s) (s_free s) (s_acc s) (s_mu s) (s_tau s) (s_cur s).
Definition set_refs s v := St (s_mumin s) (s_mumax s) (s_idi s) (s_ipi s) v (s_chk s) (s_nob s) (s_filter s) (s_free s) (s_acc s) (s_mu s) (s_tau s) (s_cur s).
Definition set_chk s v := St (s_mumin s) (s_mumax s) (s_idi s) (s_ipi s) (s_refs s) v (s_nob s) (s_filter s) (s_free s) (s_acc s) (s_mu s) (s_tau s) (s_cur s).
Definition set_nob s v := St (s_mumin s) (s_mumax s) (s_idi s) (s_ipi s) (s_refs s) (s_chk s) v (s_filter s) (s_free s) (s_acc s) (s_mu s) (s_tau s) (s_cur s).
Definition set_filter s v := St (s_mumin s) (s_mumax s) (s_idi s) (s_ipi s) (s_refs s) (s_chk s) (s_nob s) v (s_free s) (s_acc s) (s_mu s) (s_tau s) (s_cur s).
Definition set_free s v := St (s_mumin s) (s_mumax s) (s_idi s) (s_ipi s) (s_refs s) (s_chk s) (s_nob s) (s_filter s) v (s_acc s) (s_mu s) (s_tau s) (s_cur s).
Definition set_acc s v := St (s_mumin s) (s_mumax s) (s_idi s) (s_ipi s) (s_refs s) (s_chk s) (s_nob s) (s_filter s) (s_free s) v (s_mu s) (s_tau s) (s_cur s).
Definition set_mu s v := St (s_mumin s) (s_mumax s) (s_idi s) (s_ipi s) (s_refs s) (s_chk s) (s_nob s) (s_filter s) (s_free s) (s_acc s) v (s_tau s) (s_cur s).
Definition set_tau s v := St (s_mumin s) (s_mumax s) (s_idi s) (s_ipi s) (s_refs s) (s_chk s) (s_nob s) (s_filter s) (s_free s) (s_acc s) (s_mu s) v (s_cur s).
Definition set_cur s v := St (s_mumin s) (s_mumax s) (s_idi s) (s_ipi s) (s_refs s) (s_chk s) (s_nob s) (s_filter s) (s_free s) (s_acc s) (s_mu s) (s_tau s) v.

(** IpFilter.hpp 40-83, IpFilter.cpp 43-87 with two coordinates (C01, C02 model the general
    filter): Acceptable and AddEntry *)
Definition acceptable (F : list (R * R)) (f t : R) : bool :=
  forallb (fun e => if Rle_dec f (fst e) then true else if Rle_dec t (snd e) then true else false) F.
Definition dominated (f t : R) (e : R * R) : bool :=
  if Rgt_dec f (fst e) then false else if Rgt_dec t (snd e) then false else true.
Definition add_entry (F : list (R * R)) (f t : R) : list (R * R) :=
  filter (fun e => negb (dominated f t e)) F ++ [(f, t)].

(** CheckSufficientProgress (447-491) *)
Definition check_progress (s : st) : bool :=
  let p := s_cur s in
  match o_glob o with
  | KKT_ERROR =>
      if o_rediters o <=? length (s_refs s) then
        existsb (fun e => if Rle_dec (q_kkt q p) (o_redfact o * e) then true else false) (s_refs s)
      else true
  | FILTER_OBJ_CONSTR =>
      let margin := o_marginfact o * Rmin (o_maxmargin o) (q_nlp q p) in
      acceptable (s_filter s) (q_f q p + margin) (q_theta q p + margin)
  | NEVER_MONOTONE_MODE => true
  end.

(** RememberCurrentPointAsAccepted (493-546); None: pop_front of an empty list *)
Definition remember (s : st) : option st :=
  let p := s_cur s in
  let s1 :=
    match o_glob o with
    | KKT_ERROR =>
        if o_rediters o <=? length (s_refs s) then
          match s_refs s with
          | [] => None
          | _ :: r => Some (set_refs s (r ++ [q_kkt q p]))
          end
        else Some (set_refs s (s_refs s ++ [q_kkt q p]))
    | FILTER_OBJ_CONSTR => Some (set_filter s (add_entry (s_filter s) (q_f q p) (q_theta q p)))
    | NEVER_MONOTONE_MODE => Some s
    end in
  match s1 with
  | None => None
  | Some s1 => Some (if o_restore o then set_acc s1 (Some p) else s1)
  end.

(** Compute_tau_monotone (548-553) *)
Definition tau_monotone (mu : R) : R := Rmax (o_taumin o) (1 - mu).

(** min_ref_val (555-567); None: *begin() of an empty list *)
Definition min_ref_val (r : list R) : option R :=
  match r with [] => None | e :: r => Some (fold_left Rmin r e) end.

(** lower_mu_safeguard (747-797) *)
Definition lower_safe (s : st) : option (st * R) :=
  if Req_EM_T (o_safe o) 0 then Some (s, 0) else
  let d := q_dinf q (s_cur s) in
  let p := q_pinf q (s_cur s) in
  let idi := if Rlt_dec (s_idi s) 0 then Rmax 1 d else s_idi s in
  let ipi := if Rlt_dec (s_ipi s) 0 then Rmax 1 p else s_ipi s in
  let s1 := set_init s idi ipi in
  let l := Rmax (o_safe o * (d / idi)) (o_safe o * (p / ipi)) in
  match o_glob o with
  | KKT_ERROR => match min_ref_val (s_refs s1) with None => None | Some m => Some (s1, Rmin l m) end
  | _ => Some (s1, l)
  end.

(** NewFixedMu (584-628) *)
Definition new_fixed_mu (c : call) (s : st) : option (st * R) :=
  let m0 :=
    match (if o_hasfix o then c_fix c (Rmax (s_mumin s) (o_mutarget o)) (s_mumax s) else None) with
    | Some m => m
    | None => o_initfact o * q_avrg q (s_cur s)
    end in
  match lower_safe s with
  | None => None
  | Some (s1, l) =>
      let m1 := Rmin (Rmax m0 l) (/ 10 * 10 ^ 20) in
      Some (s1, Rmin (Rmax m1 (s_mumin s1)) (s_mumax s1))
  end.

(** UpdateBarrierParameter, the lines before the bounds check (259-275): mu_min_, mu_max_ *)
Definition upd_limits (c : call) (s : st) : st :=
  let s1 := if o_mumin_user o then s
            else set_mumin s (Rmin (s_mumin s) (/ 2 * Rmin (c_tol c) (c_ctol c))) in
  if Rlt_dec (s_mumax s1) 0 then set_mumax s1 (o_mumaxfact o * q_avrg q (s_cur s1)) else s1.

(** 277-291 *)
Definition upd_bounds (s : st) : st :=
  if s_chk s then s
  else
    let s1 := if (q_nbounds q (s_cur s) =? 0)%nat
              then set_tau (set_mu (set_nob s true) (s_mumin s)) (o_taumin o) else s in
    set_chk s1 true.

(** new_mu in fixed mode (326-330) *)
Definition reduced_mu (c : call) (mu : R) : R :=
  Rmax (Rmin (o_lin o * mu) (pw mu (o_pow o))) (Rmin (c_ctol c) (c_tol c) / (o_btol o + 1)).

(** The part after the mode has been decided (393-443): free mode calls the oracle *)
Definition finish (c : call) (s : st) (ev : list event) : outcome :=
  if s_free s then
    let s1 := set_tau s (Rmax (o_taumin o) (1 - q_nlp q (s_cur s))) in
    match c_free c (Rmax (s_mumin s1) (o_mutarget o)) (s_mumax s1) with
    | None => Ret false s1 ev
    | Some m =>
        let m1 := Rmax m (s_mumin s1) in
        match lower_safe s1 with
        | None => Undef
        | Some (s2, l) =>
            let (m2, ev2) := if Rlt_dec m1 l then (l, ev ++ [EInfoM]) else (m1, ev) in
            Ret true (set_mu s2 (Rmin m2 (s_mumax s2))) (ev2 ++ [EReset])
        end
    end
  else Ret true s (ev ++ [EInfoF; ERigorous]).

(** UpdateBarrierParameter (252-445) *)
Definition update (c : call) (s0 : st) : outcome :=
  let s := upd_bounds (upd_limits c (set_cur s0 (c_pt c))) in
  if s_nob s then Ret true s [] else
  let tiny := c_tiny c in
  let ok := check_progress s in
  if negb (s_free s) then
    if ok && negb tiny then
      match remember (set_free s true) with
      | None => Undef
      | Some s1 => finish c s1 []
      end
    else if (if Rle_dec (q_berr q (s_cur s) (s_mu s)) (o_btol o * s_mu s) then true else false) || tiny then
      let m := reduced_mu c (s_mu s) in
      if tiny && (if Req_EM_T m (s_mu s) then true else false) then Tiny s
      else finish c (set_tau (set_mu s m) (tau_monotone (s_mu s))) [EReset]
    else finish c s []
  else
    let ok := match o_glob o with
              | NEVER_MONOTONE_MODE => ok
              | _ => if c_skip c || tiny then false else ok
              end in
    if ok then
      match remember s with None => Undef | Some s1 => finish c s1 [] end
    else
      let s1 := set_free s false in
      let r := if o_restore o then
                 match s_acc s1 with None => None | Some p => Some (set_cur s1 p, [EAccept p]) end
               else Some (s1, []) in
      match r with
      | None => Undef
      | Some (s2, ev) =>
          match new_fixed_mu c s2 with
          | None => Undef
          | Some (s3, m) =>
              if tiny && (if Req_EM_T m (s_mu s3) then true else false) then Tiny s3
              else finish c (set_tau (set_mu s3 m) (tau_monotone m)) (ev ++ [EReset])
          end
      end.

End Update.

(** * quality_function_pd_system (630-745)
    The norms of the dual and primal infeasibility and the complementarity at the current
    iterate (each in the three norms), the dimensions and the centrality measure are given. *)
Inductive qnorm := NM_1 | NM_2SQ | NM_MAX | NM_2.
Inductive qcent := CEN_NONE | CEN_LOG | CEN_RECIPROCAL | CEN_CUBED_RECIPROCAL.
Record norms := Norms { n_1 : R; n_2 : R; n_max : R }.

Definition scaled (k : qnorm) (v : norms) (n : nat) : R :=
  match k with
  | NM_1 => if (n =? 0)%nat then n_1 v else n_1 v / INR n
  | NM_2SQ => if (n =? 0)%nat then n_2 v * n_2 v else n_2 v * n_2 v / INR n
  | NM_MAX => n_max v
  | NM_2 => if (n =? 0)%nat then n_2 v else n_2 v / sqrt (INR n)
  end.
(** The dual infeasibility is divided by n_dual without a test for 0: [scaled] divides by
    n_dual > 0 only, so it is the same for a problem with at least one variable. *)
Definition kkt_error (k : qnorm) (ce : qcent) (bal : bool) (ndual npri ncomp : nat)
    (d p c : norms) (xi : R) : R :=
  let dual_inf := scaled k d ndual in
  let primal_inf := scaled k p npri in
  let complty := scaled k c ncomp in
  let centrality := match ce with
                    | CEN_NONE => 0
                    | CEN_LOG => - complty * ln xi
                    | CEN_RECIPROCAL => complty / xi
                    | CEN_CUBED_RECIPROCAL => complty / (xi ^ 3)
                    end in
  let balancing := if bal then (Rmax 0 (Rmax dual_inf primal_inf - complty)) ^ 3 else 0 in
  primal_inf + dual_inf + complty + centrality + balancing.

(** * LoqoMuOracle::CalculateMu (33-68) *)
Definition loqo_sigma (xi : R) : R := / 10 * (Rmin (/ 20 * (1 - xi) / xi) 2) ^ 3.
Definition loqo (avrg xi mu_min mu_max : R) : R :=
  Rmax (Rmin mu_max (loqo_sigma xi * avrg)) mu_min.

(** * QualityFunctionMuOracle *)
Section Golden.
(** CalculateQualityFunction as a function of sigma, and
    quality_function_max_section_steps_; ScaleSigma and UnscaleSigma are the identity
    (IpQualityFunctionMuOracle.cpp 842-855) *)
Variable f : R -> R.
Variable max_steps : nat.

Definition gfac : R := (3 - sqrt 5) / 2.

(** sigma_lo, sigma_up, sigma_mid1, sigma_mid2, q_lo, q_up, qmid1, qmid2, and the sigmas at
    which the quality function has been evaluated (last one first) *)
Record gst := Gst { g_lo : R; g_up : R; g_m1 : R; g_m2 : R;
                    g_qlo : R; g_qup : R; g_q1 : R; g_q2 : R; g_evals : list R }.

Definition min4 a b c d : R := Rmin (Rmin (Rmin a b) c) d.
Definition max4 a b c d : R := Rmax (Rmax (Rmax a b) c) d.
Definition g_min (g : gst) : R := min4 (g_qlo g) (g_qup g) (g_q1 g) (g_q2 g).
Definition g_max (g : gst) : R := max4 (g_qlo g) (g_qup g) (g_q1 g) (g_q2 g).
(** 1. - min / max >= qf_tol, and < qf_tol. With max = 0 the quotient is an infinity (minus
    infinity if min < 0) or NaN: 1 - min/max is plus infinity if min < 0, else NaN, for which
    both comparisons are false. *)
Definition qf_ge (g : gst) (tol : R) : bool :=
  if Req_EM_T (g_max g) 0 then (if Rlt_dec (g_min g) 0 then true else false)
  else if Rge_dec (1 - g_min g / g_max g) tol then true else false.
Definition qf_lt (g : gst) (tol : R) : bool :=
  if Req_EM_T (g_max g) 0 then false
  else if Rlt_dec (1 - g_min g / g_max g) tol then true else false.
Definition wide (g : gst) (tol : R) : bool :=
  if Rge_dec (g_up g - g_lo g) (tol * g_up g) then true else false.

(** 696-712 *)
Definition g_init (up qup lo qlo : R) : gst :=
  let m1 := lo + gfac * (up - lo) in
  let m2 := lo + (1 - gfac) * (up - lo) in
  Gst lo up m1 m2 qlo qup (f m1) (f m2) [m2; m1].

(** The loop body (721-751) *)
Definition g_step (g : gst) : gst :=
  if Rgt_dec (g_q1 g) (g_q2 g) then
    let lo := g_m1 g in
    let m2 := lo + (1 - gfac) * (g_up g - lo) in
    Gst lo (g_up g) (g_m2 g) m2 (g_q1 g) (g_qup g) (g_q2 g) (f m2) (m2 :: g_evals g)
  else
    let up := g_m2 g in
    let m1 := g_lo g + gfac * (up - g_lo g) in
    Gst (g_lo g) up m1 (g_m1 g) (g_qlo g) (g_q2 g) (f m1) (g_q1 g) (m1 :: g_evals g).

(** The while loop (714-752): [n] = max_steps - nsections *)
Fixpoint g_loop (n : nat) (stol qtol : R) (g : gst) : gst :=
  match n with
  | O => g
  | S n' => if wide g stol && qf_ge g qtol then g_loop n' stol qtol (g_step g) else g
  end.

(** After the loop (754-834): the sigma returned and all evaluation points *)
Definition g_result (up_in lo_in stol qtol : R) (g : gst) : R * list R :=
  if wide g stol && qf_lt g qtol then
    let m := g_min g in
    ((if Req_EM_T m (g_qlo g) then g_lo g
      else if Req_EM_T m (g_q1 g) then g_m1 g
      else if Req_EM_T m (g_q2 g) then g_m2 g
      else g_up g), g_evals g)
  else
    let (sigma, qv) := if Rlt_dec (g_q1 g) (g_q2 g) then (g_m1 g, g_q1 g) else (g_m2 g, g_q2 g) in
    if Req_EM_T (g_up g) up_in then
      let (qtmp, ev) := if Rlt_dec (g_qup g) 0 then (f (g_up g), g_up g :: g_evals g)
                        else (g_qup g, g_evals g) in
      (if Rlt_dec qtmp qv then g_up g else sigma, ev)
    else if Req_EM_T (g_lo g) lo_in then
      let (qtmp, ev) := if Rlt_dec (g_qlo g) 0 then (f (g_lo g), g_lo g :: g_evals g)
                        else (g_qlo g, g_evals g) in
      (if Rlt_dec qtmp qv then g_lo g else sigma, ev)
    else (sigma, g_evals g).

(** PerformGoldenSection (668-838) *)
Definition golden (up qup lo qlo stol qtol : R) : R * list R :=
  g_result up lo stol qtol (g_loop max_steps stol qtol (g_init up qup lo qlo)).

(** The choice of sigma in CalculateMu (330-392); the second component: all evaluation
    points *)
Definition qf_sigma (sigma_min sigma_max stol qtol mu_min mu_max avrg : R) : R * list R :=
  let qf_1 := f 1 in
  let s1m := 1 - Rmax (/ 10000) stol in
  let qf_1m := f s1m in
  if Rgt_dec qf_1m qf_1 then
    let up := Rmin sigma_max (mu_max / avrg) in
    if Rge_dec 1 up then (up, [s1m; 1])
    else let (s, ev) := golden up (-100) 1 qf_1 stol qtol in (s, ev ++ [s1m; 1])
  else
    let lo := Rmax sigma_min (mu_min / avrg) in
    let up := Rmin (Rmax lo s1m) (mu_max / avrg) in
    if Rge_dec lo up then (lo, [s1m; 1])
    else let (s, ev) := golden up qf_1m lo (-100) stol qtol in (s, ev ++ [s1m; 1]).

(** CalculateMu: new_mu (417, 484) *)
Definition qf_mu (sigma_min sigma_max stol qtol mu_min mu_max avrg : R) : R :=
  fst (qf_sigma sigma_min sigma_max stol qtol mu_min mu_max avrg) * avrg.

End Golden.
