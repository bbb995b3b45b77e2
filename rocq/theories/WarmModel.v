(** Model of src/Algorithm/IpWarmStartIterateInitializer.cpp (warm_start_init_point=yes).

    Vectors are lists, expansion matrices place and pick components (C25): a variable is a record with its optional bounds and the
    multipliers of these (the multiplier of a bound that does not exist has no meaning). The first block are the variables x with z_L, z_U,
    the second one the slacks s of the inequalities d(x) with v_L, v_U. Numbers are the reals; push_variables and the safeguarded slacks
    are those of InitModel. warm_start_same_structure, output and the info string are left out. *)
From Coq Require Import Reals List Bool.
From Verif Require Import Num VecModel VecReal InitModel.
Import ListNotations.
Open Scope R_scope.

(** * Options: GetNumericValue tells if the user has set the option; the value is the user's or the default *)
Definition get (user : option R) (default : R) : bool * R := match user with Some v => (true, v) | None => (false, default) end.
(** InitializeImpl 82-119. The values [..0] are the defaults registered in 28-75 and in IpDefaultIterateInitializer.cpp 33-45 *)
Definition opt_push (ws bp : option R) (ws0 bp0 : R) : R :=
  let (b, v) := get ws ws0 in if b then v else snd (get bp bp0).
Definition opt_slack_push (ws bp : option R) (ws0 bp0 : R) : R :=
  let (b, v) := get ws ws0 in if b then v else
  let (b, v) := get bp bp0 in if b then v else
  let (b, v) := get ws ws0 in if b then v else snd (get bp bp0).

Record opts := Opts { o_push : R; o_frac : R; o_spush : R; o_sfrac : R; o_mpush : R; o_mmax : R; o_target : R }.
Record wvar := W { w_x : R; w_lo : option R; w_up : option R; w_zl : R; w_zu : R }.

Section M.
Variables (lg : R -> R) (eps dmin tiny move mu : R) (o : opts).    (* slack safeguard: machine precision, smallest number, slack_move, current mu *)
Notation O := (R_ops lg).

(** ElementWiseMin, ElementWiseMax with constant vectors: 149-184 and 212-239 *)
Definition cap_y (y : R) : R := if Rlt_dec 0 (o_mmax o) then Rmax (Rmin y (o_mmax o)) (- o_mmax o) else y.
Definition cap_z (z : R) : R := if Rlt_dec 0 (o_mmax o) then Rmin z (o_mmax o) else z.
Definition cap (w : wvar) : wvar := W (w_x w) (w_lo w) (w_up w) (cap_z (w_zl w)) (cap_z (w_zu w)).
(** 241-258: slack variable and multipliers of an inequality without a given iterate; [d] its value, [y] the multiplier *)
Definition from_y (d : R) (lo up : option R) (y : R) : wvar := W d lo up (Rmax (- y) (o_mpush o)) (Rmax y (o_mpush o)).

(** adapt_to_target_mu 394-428, one component *)
Definition adapt (t s z : R) : R * R :=
  if Rlt_dec (10000 * z) s then
    let z := t / s in if Rlt_dec s z then (sqrt t, sqrt t) else (s, z)
  else if Rlt_dec (10000 * s) z then
    let s := t / z in if Rlt_dec z s then (sqrt t, sqrt t) else (s, z)
  else (sqrt t, sqrt t).
(** process_target_mu 370-392, one component; [f]: factor, [s]: slack *)
Definition process (f t x s z : R) : R * R := let (s', z') := adapt t s z in (x + f * (s' - s), z').
(** slacks of the current or trial iterate: CalcSlack and CalculateSafeSlack *)
Definition slacks (es : list (sl (T:=R))) : list R := snd (safe_slack O eps dmin mu move es).
Definition lows (ws : list wvar) : list (sl (T:=R)) :=
  flat_map (fun w => match w_lo w with Some l => [SL (slack_low O (w_x w) l) l (w_zl w)] | None => [] end) ws.
Definition upps (ws : list wvar) : list (sl (T:=R)) :=
  flat_map (fun w => match w_up w with Some u => [SL (slack_upp O (w_x w) u) u (w_zu w)] | None => [] end) ws.
(** 273-314 for one block: lower bounds with the current point, then upper bounds with the point from that; multipliers of the current iterate *)
Fixpoint target_low (ws : list wvar) (ss : list R) : list wvar :=
  match ws with
  | [] => []
  | w :: ws => match w_lo w, ss with
      | Some _, s :: ss => let (x, z) := process 1 (o_target o) (w_x w) s (w_zl w) in W x (w_lo w) (w_up w) z (w_zu w) :: target_low ws ss
      | _, _ => w :: target_low ws ss
      end
  end.
Fixpoint target_upp (ws : list wvar) (ss : list R) : list wvar :=
  match ws with
  | [] => []
  | w :: ws => match w_up w, ss with
      | Some _, s :: ss => let (x, z) := process (-1) (o_target o) (w_x w) s (w_zu w) in W x (w_lo w) (w_up w) (w_zl w) z :: target_upp ws ss
      | _, _ => w :: target_upp ws ss
      end
  end.
Definition target (ws : list wvar) : list wvar :=
  if Rlt_dec 0 (o_target o) then
    let ws1 := target_low ws (slacks (lows ws)) in target_upp ws1 (slacks (upps ws1))
  else ws.
(** 316-354 for one block *)
Definition push (bp bf : R) (ws : list wvar) : list wvar :=
  map (fun p => W (v_x (snd p)) (w_lo (fst p)) (w_up (fst p)) (Rmax (w_zl (fst p)) (o_mpush o)) (Rmax (w_zu (fst p)) (o_mpush o)))
      (combine ws (push_variables O tiny bp bf (map (fun w => VAR (w_x w) (w_lo w) (w_up w)) ws))).

(** what the NLP delivers: the blocks for x and (with GetWarmStartIterate) for s; the values of d with the bounds; y_c; y_d *)
Record input := In_ { i_x : list wvar; i_entire : option (list wvar); i_d : list (R * option R * option R); i_yc : list R; i_yd : list R }.
Record output := Out { u_x : list wvar; u_s : list wvar; u_yc : list R; u_yd : list R }.
(** SetInitialIterates 124-368 *)
Definition warm_start (i : input) : output :=
  let yd := map cap_y (i_yd i) in
  let s := match i_entire i with
           | Some s => map cap s
           | None => map (fun p => from_y (fst (fst (fst p))) (snd (fst (fst p))) (snd (fst p)) (snd p)) (combine (i_d i) yd)
           end in
  Out (push (o_push o) (o_frac o) (target (map cap (i_x i)))) (push (o_spush o) (o_sfrac o) (target s)) (map cap_y (i_yc i)) yd.
End M.
