(** Model of the component-wise vector computations that keep iterates inside
    their bounds:
    - /repo/src/Algorithm/IpOrigIpoptNLP.cpp:460-482 (relax_bounds), 344-360,
      935-957 (FinalizeSolution, honor_original_bounds)
    - /repo/src/Algorithm/IpDefaultIterateInitializer.cpp:473-655 (push_variables)
    - /repo/src/Algorithm/IpIpoptCalculatedQuantities.cpp:355-540 (trial slacks,
      CalcSlack_L/U, CalculateSafeSlack, AdjustedTrialSlacks)
    - /repo/src/Algorithm/IpIpoptAlg.cpp:655-720 (AcceptTrialPoint: bounds),
      1055-1140 (correct_bound_multiplier)

    Polymorphic in the number type. The vector operations are the elementwise
    ones proved for the vector classes in C20/C23, the expansion matrices Px_L,
    Px_U place and pick components (C25): hence a vector is a list and a pair of
    bounds of a variable is an optional number each. Multiplications by 1 and -1
    (exact in IEEE arithmetic) are written as identity and change of sign. *)
From Coq Require Import List Bool ZArith Reals.
From Flocq Require Import Core BinarySingleNaN.
From Verif Require Import Num VecModel.
Import ListNotations.

Section Model.
Context {T : Type} (O : nops T).
Local Notation "x + y" := (tadd O x y).
Local Notation "x - y" := (tsub O x y).
Local Notation "x * y" := (tmul O x y).
Local Notation "x / y" := (tdiv O x y).
Local Notation "- x" := (topp O x).
Local Notation "x <? y" := (tlt O x y).
Local Notation "x =? y" := (teq O x y).
Local Notation zero := (t0 O).
Local Notation one := (t1 O).
Local Notation Max := (tmax O).
Local Notation Min := (tmin O).

(** ** relax_bounds, IpOrigIpoptNLP.cpp:460-482; one component. [f] is
    bound_relax_factor with its sign, [ctol] is constr_viol_tol_ *)
Definition relax_bound (f ctol b : T) : T :=
  let tmp := tabs O f * tabs O b in
  let tmp := Max tmp (tabs O f) in
  let tmp := Min tmp ctol in
  if f <? zero then b - tmp else b + tmp.
(** 344-360 *)
Definition relax_lower (factor ctol : T) (l : list T) : list T :=
  if zero <? factor then map (relax_bound (- factor) ctol) l else l.
Definition relax_upper (factor ctol : T) (u : list T) : list T :=
  if zero <? factor then map (relax_bound factor ctol) u else u.

(** ** push_variables *)
Record var := VAR { v_x : T; v_lo : option T; v_up : option T }.
(** Px^T v after Px w: the other bound of the variable, 0 if there is none *)
Definition or0 (o : option T) : T := match o with Some v => v | None => zero end.
(** [tiny] is tiny_double = 100 DBL_MIN *)
Variables (tiny bound_push bound_frac : T).
(** 527-538: q_l, for a component with lower bound [l] *)
Definition q_low (l : T) (up : option T) : T :=
  bound_frac * (match up with Some u => u - l | None => zero end) - tiny.
(** 540-554: p_l *)
Definition p_low (l : T) (up : option T) : T :=
  one / Max (one / Max (tabs O (bound_push * l)) bound_push) (one / q_low l up).
(** 570-578: q_u *)
Definition q_upp (u : T) (lo : option T) : T :=
  bound_frac * (match lo with Some l => u - l | None => zero end) - tiny.
(** 580-592: p_u *)
Definition p_upp (u : T) (lo : option T) : T :=
  one / Max (one / Max (tabs O (bound_push * u)) bound_push) (one / q_upp u lo) + tiny.
(** 603-617: the corrections tmp_l, tmp_u of a variable ([None]: no such bound) *)
Definition corr_low (v : var) : option T :=
  match v_lo v with Some l => Some (Max ((- v_x v) + (l + p_low l (v_up v))) zero) | None => None end.
Definition corr_upp (v : var) : option T :=
  match v_up v with Some u => Some (Max (v_x v + ((- u) + p_upp u (v_lo v))) zero) | None => None end.
(** 619-631: the same for bound_push = bound_frac = 0 *)
Definition corr_low0 (v : var) : option T :=
  match v_lo v with Some l => Some (Max (l - v_x v) zero) | None => None end.
Definition corr_upp0 (v : var) : option T :=
  match v_up v with Some u => Some (Max ((- u) + v_x v) zero) | None => None end.
Definition somes (l : list (option T)) : list T := flat_map (fun o => match o with Some a => [a] | None => [] end) l.
(** 633-672; [cl], [cu] compute the corrections *)
Definition apply_corr (cl cu : var -> option T) (vs : list var) : list var :=
  let nl := zero <? blas_amax O (somes (map cl vs)) in
  let nu := zero <? blas_amax O (somes (map cu vs)) in
  if nl || nu then
    map (fun v =>
      let d := if nl then (match cl v with Some c => zero + c | None => zero end) else zero in
      let d := if nu then (match cu v with Some c => d - c | None => d end) else d in
      VAR (d + v_x v) (v_lo v) (v_up v)) vs
  else vs.
Definition push_variables (vs : list var) : list var :=
  let vs := if (zero <? bound_push) || (zero <? bound_frac) then apply_corr corr_low0 corr_upp0 vs else vs in
  if zero <? bound_frac then apply_corr corr_low corr_upp vs else apply_corr corr_low0 corr_upp0 vs.

(** ** CalculateSafeSlack: slack, bound, multiplier of each component *)
Record sl := SL { s_val : T; s_bound : T; s_mult : T }.
(** [eps] machine precision, [dmin] smallest normalised number *)
Variables (eps dmin : T).
(** 468-476 *)
Definition s_min (mu : T) : T := let s := eps * Min one mu in if s =? zero then dmin else s.
(** 481-533, one component *)
Definition too_small (smin : T) (e : sl) : T := - Min (sgn O (s_val e + (- smin))) zero.
Definition correct_slack (mu move smin : T) (e : sl) : T :=
  let t := too_small smin e in
  let s := Max (s_val e) zero in
  let t2 := Max (mu / s_mult e) smin - s in
  let t := sel O t t2 + s in
  Min t (s + move * Max one (tabs O (s_bound e))).
(** result: number of corrections (AsNumber to Index) and the slacks *)
Definition safe_slack (mu move : T) (es : list sl) : nat * list T :=
  match es with
  | [] => (0%nat, [])
  | _ =>
      let smin := s_min mu in
      if fold_min O (map s_val es) <? smin
      then (length (filter (fun e => zero <? too_small smin e) es), map (correct_slack mu move smin) es)
      else (0%nat, map s_val es)
  end.
(** CalcSlack_L, CalcSlack_U: TransMultVector(1, x, -1, bound), TransMultVector(-1, x, 1, bound) *)
Definition slack_low (x l : T) : T := (- l) + x.
Definition slack_upp (x u : T) : T := u - x.
(** IpIpoptAlg.cpp:688-702 *)
Definition new_low (x s : T) : T := x - s.
Definition new_upp (x s : T) : T := x + s.

(** ** slacks of one kind at the current and the trial point with their caches
    (each of size 1, the key is the point's tag) and the counter
    num_adjusted_slack_x_L_ (IpIpoptCalculatedQuantities.cpp:268-290, 358-377, 547-552).
    [es tag] gives bound distance, bound and multiplier at a point; multipliers
    are those of the current iterate. *)
Record tslack := TS { ts_curr : option (Z * list T); ts_trial : option (Z * list T); ts_num : nat }.
Definition hit (c : option (Z * list T)) (tag : Z) : option (list T) :=
  match c with Some (t, r) => if (t =? tag)%Z then Some r else None | None => None end.
(** 358-377 *)
Definition trial_slack (mu move : T) (es : Z -> list sl) (tag : Z) (s : tslack) : tslack * list T :=
  let s := TS (ts_curr s) (ts_trial s) 0 in
  match hit (ts_trial s) tag with
  | Some r => (s, r)
  | None =>
      match hit (ts_curr s) tag with
      | Some r => (TS (ts_curr s) (Some (tag, r)) 0, r)
      | None => let '(n, r) := safe_slack mu move (es tag) in (TS (ts_curr s) (Some (tag, r)) n, r)
      end
  end.
(** 268-290 (curr_slack_x_L) *)
Definition curr_slack (mu move : T) (es : Z -> list sl) (tag : Z) (s : tslack) : tslack * list T :=
  match hit (ts_curr s) tag with
  | Some r => (s, r)
  | None =>
      match hit (ts_trial s) tag with
      | Some r => (TS (Some (tag, r)) (ts_trial s) (ts_num s), r)
      | None => let '(n, r) := safe_slack mu move (es tag) in (TS (Some (tag, r)) (ts_trial s) n, r)
      end
  end.
(** AcceptTrialPoint, IpIpoptAlg.cpp:655-711, for the lower bounds of x: if some
    slack of the trial point was corrected all bounds are replaced by x - slack.
    [others]: the sum of the other three counters. Result: bounds *)
Definition accept_low (mu move : T) (es : Z -> list sl) (others : nat) (x : Z -> list T) (tag : Z) (lows : list T) (s : tslack)
  : tslack * list T :=
  if Nat.ltb 0 (ts_num s + others) then
    let '(s, r) := trial_slack mu move es tag (TS (ts_curr s) (ts_trial s) 0) in
    (s, map2 new_low (x tag) r)
  else (s, lows).

(** ** FinalizeSolution, 935-957: honor_original_bounds. [relaxed] is
    bound_relax_factor_ > 0 and some variable has a bound *)
Definition honor (on : bool) (factor : T) (v : var) : T :=
  if on && (zero <? factor) then
    let x := v_x v in
    let x := match v_lo v with Some l => (x - x) + Max x l | None => x end in
    match v_up v with Some u => (x - x) + Min x u | None => x end
  else v_x v.

(** ** correct_bound_multiplier, IpIpoptAlg.cpp:1055-1140. [mu] as chosen in
    1072-1084; components are (z, slack, complementarity). First component of the
    result: the maximal correction *)
Record mlt := ML { m_z : T; m_s : T; m_c : T }.
Definition correct_mult (kappa mu : T) (ms : list mlt) : T * list T :=
  if (kappa <? one) || Nat.eqb (length ms) 0 then (zero, map m_z ms)
  else if negb ((kappa * mu) <? blas_amax O (map m_c ms)) && negb (fold_min O (map m_c ms) <? (one / kappa) * mu)
  then (zero, map m_z ms)
  else
    let step := map (fun m => (kappa * mu) * (one / m_s m) - m_z m) ms in
    let up := Max zero (- fold_min O step) in
    let z1 := if zero <? up then map (fun m => m_z m + Min ((kappa * mu) * (one / m_s m) - m_z m) zero) ms else map m_z ms in
    let step2 := map2 (fun m z => ((one / kappa) * mu) * (one / m_s m) - z) ms z1 in
    let low := Max zero (fold_max O step2) in
    let z2 := if zero <? low then map2 (fun m z => z + Max (((one / kappa) * mu) * (one / m_s m) - z) zero) ms z1 else z1 in
    (Max up low, z2).
End Model.
Arguments VAR {T}. Arguments v_x {T}. Arguments v_lo {T}. Arguments v_up {T}.
Arguments SL {T}. Arguments s_val {T}. Arguments s_bound {T}. Arguments s_mult {T}.
Arguments TS {T}. Arguments ts_curr {T}. Arguments ts_trial {T}. Arguments ts_num {T}. Arguments hit {T}.
Arguments ML {T}. Arguments m_z {T}. Arguments m_s {T}. Arguments m_c {T}.
