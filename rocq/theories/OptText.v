(** * OptText: characters, strings and the C library conversions used by the option classes.

    A character is a byte (a [Z] in 0..255), a string a list of bytes. The conversions are those of the
    C library (ISO C 7.4, 7.21.6, 7.22.1) in the "C" locale with correct rounding (round to nearest
    even), as in glibc; they are called at IpOptionsList.cpp 119, 206, 552, 619, 759, 775.
    Not modelled: hexadecimal floating-point text ("0x..") and the payload of "nan(...)". *)
From Coq Require Import List ZArith Bool String Ascii Lia.
From Flocq Require Import Core BinarySingleNaN.
From Verif Require Import Num.
Import ListNotations.
Open Scope Z_scope.

Definition str := list Z.
Definition lit (s : string) : str := map (fun a => Z.of_N (N_of_ascii a)) (list_ascii_of_string s).

Fixpoint str_eqb (a b : str) : bool :=
  match a, b with
  | [], [] => true
  | x :: a', y :: b' => (x =? y) && str_eqb a' b'
  | _, _ => false
  end.

(** ISO C 7.4.2 / 7.4.1 in the "C" locale. *)
Definition tolower (c : Z) : Z := if (65 <=? c) && (c <=? 90) then c + 32 else c.
Definition toupper (c : Z) : Z := if (97 <=? c) && (c <=? 122) then c - 32 else c.
Definition isspace (c : Z) : bool := ((9 <=? c) && (c <=? 13)) || (c =? 32).
Definition isdigit (c : Z) : bool := (48 <=? c) && (c <=? 57).

(** ** Integers *)

(** Decimal digits of [n >= 0], most significant first, in front of [acc]. *)
Fixpoint digs (fuel : nat) (n : Z) (acc : str) : str :=
  match fuel with
  | O => acc
  | S f => if n <? 10 then (48 + n) :: acc else digs f (n / 10) ((48 + n mod 10) :: acc)
  end.
Definition udec (n : Z) : str := digs (S (Z.to_nat (Z.log2 n))) n [].
(** printf "%d". *)
Definition fmt_d (z : Z) : str := if z <? 0 then 45 :: udec (- z) else udec z.

Fixpoint skip_space (s : str) : str :=
  match s with c :: s' => if isspace c then skip_space s' else s | [] => [] end.

(** Longest run of digits: value (most significant first, starting from [a]), number of digits, rest. *)
Fixpoint read_digits (a : Z) (k : nat) (s : str) : Z * nat * str :=
  match s with
  | c :: s' => if isdigit c then read_digits (10 * a + (c - 48)) (S k) s' else (a, k, s)
  | [] => (a, k, [])
  end.

Definition read_sign (s : str) : bool * str :=
  match s with
  | 45 :: s' => (true, s')
  | 43 :: s' => (false, s')
  | _ => (false, s)
  end.

Definition LONG_MAX : Z := 2^63 - 1.
Definition LONG_MIN : Z := - 2^63.
(** strtol(s, &p_end, 10) with 64-bit long: value and the text at p_end (7.22.1.4: if no conversion is
    possible p_end is the start of the text; out-of-range values saturate). *)
Definition strtol (s : str) : Z * str :=
  let s1 := skip_space s in
  let '(neg, s2) := read_sign s1 in
  let '(v, k, rest) := read_digits 0 0 s2 in
  match k with
  | O => (0, s)
  | _ => (Z.max LONG_MIN (Z.min LONG_MAX (if neg then - v else v)), rest)
  end.

(** [static_cast<Index>(size_t)] : conversion to a 32-bit two's complement integer (the value goes
    through size_t, which does not change it modulo 2^32). *)
Definition to_int (v : Z) : Z := let w := v mod 2^32 in if w <? 2^31 then w else w - 2^32.

(** ** Floating-point numbers *)

(** Nearest-even integer to [p/q], [q > 0]. *)
Definition div_ne (p q : Z) : Z :=
  let d := p / q in let r := p mod q in
  if 2 * r <? q then d else if q <? 2 * r then d + 1 else if Z.even d then d else d + 1.

(** Number of decimal digits of [n > 0]. *)
Definition ndigits (n : Z) : Z := Z.of_nat (List.length (udec n)).

(** Smallest [j >= j0] with [d <= n * 10^j]. *)
Fixpoint up10 (fuel : nat) (n d : Z) (j : Z) : Z :=
  match fuel with O => j | S f => if d <=? n * 10 ^ j then j else up10 f n d (j + 1) end.

(** floor(log10(n/d)) for positive n, d. *)
Definition exp10 (n d : Z) : Z :=
  if d <=? n then ndigits (n / d) - 1 else - up10 (S (Z.to_nat (Z.log2 d))) n d 1.

(** Six significant digits of n/d: [(q, X)] stands for [q * 10^(X-5)] with 10^5 <= q < 10^6. *)
Definition six (n d : Z) : Z * Z :=
  let X := exp10 n d in
  let q := if 0 <=? 5 - X then div_ne (n * 10 ^ (5 - X)) d else div_ne n (d * 10 ^ (X - 5)) in
  if q =? 1000000 then (100000, X + 1) else (q, X).

Definition strip0 (s : str) : str :=
  let fix go (l : str) := match l with 48 :: l' => go l' | _ => l end in rev (go (rev s)).
(** Text [int.frac] with trailing zeros of frac removed, and the point if nothing is left. *)
Definition point (i f : str) : str := match strip0 f with [] => i | f' => i ++ 46 :: f' end.
Definition exp_text (X : Z) : str :=
  let a := Z.abs X in (if X <? 0 then 45 else 43) :: (if a <? 10 then 48 :: udec a else udec a).

(** printf "%g" (7.21.6.1: precision 6; style e if X < -4 or X >= 6). *)
Definition fmt_g_pos (n d : Z) : str :=
  let '(q, X) := six n d in
  let ds := udec q in                                            (* six digits *)
  if (X <? -4) || (6 <=? X)
  then point (firstn 1 ds) (skipn 1 ds) ++ 101 :: exp_text X
  else if 0 <=? X
  then point (firstn (Z.to_nat (X + 1)) ds) (skipn (Z.to_nat (X + 1)) ds)
  else point [48] (repeat 48 (Z.to_nat (- X - 1)) ++ ds).

Definition fmt_g (x : num) : str :=
  match x with
  | B754_nan => lit "nan"
  | B754_infinity s => if s then lit "-inf" else lit "inf"
  | B754_zero s => if s then lit "-0" else lit "0"
  | B754_finite s m e _ =>
      (if s then [45] else []) ++
      (if 0 <=? e then fmt_g_pos (Z.pos m * 2 ^ e) 1 else fmt_g_pos (Z.pos m) (2 ^ (- e)))
  end.

(** Correctly rounded [p/q] ([p >= 0], [q > 0]): quotient to at least 55 bits plus a sticky bit. *)
Definition round_q (neg : bool) (p q : Z) : num :=
  let sh := Z.max 0 (Z.log2 q - Z.log2 p + 56) in
  let n := (p * 2 ^ sh) / q in
  let st := if (p * 2 ^ sh) mod q =? 0 then 0 else 1 in
  let v := 2 * n + st in
  binary_normalize 53 1024 prec53 prec53_lt mode_NE (if neg then - v else v) (- sh - 1) neg.

(** Case-insensitive prefix test. *)
Fixpoint prefix_ci (p s : str) : option str :=
  match p, s with
  | [], _ => Some s
  | a :: p', b :: s' => if tolower b =? a then prefix_ci p' s' else None
  | _, [] => None
  end.

(** Exponent part: "e" sign digits, else nothing is consumed. *)
Definition read_exp (s : str) : Z * str :=
  match s with
  | c :: s1 =>
      if tolower c =? 101 then
        let '(neg, s2) := read_sign s1 in
        let '(v, k, rest) := read_digits 0 0 s2 in
        match k with O => (0, s) | _ => (if neg then - v else v, rest) end
      else (0, s)
  | [] => (0, s)
  end.

(** strtod(s, &p_end): value and the text at p_end. *)
Definition strtod (s : str) : num * str :=
  let s1 := skip_space s in
  let '(neg, s2) := read_sign s1 in
  match prefix_ci (lit "infinity") s2 with
  | Some rest => (B754_infinity neg, rest)
  | None =>
    match prefix_ci (lit "inf") s2 with
    | Some rest => (B754_infinity neg, rest)
    | None =>
      match prefix_ci (lit "nan") s2 with
      | Some rest => (B754_nan, rest)
      | None =>
        let '(v1, k1, r1) := read_digits 0 0 s2 in
        let '(v2, k2, r2) := match r1 with 46 :: r => read_digits v1 0 r | _ => (v1, 0%nat, r1) end in
        match (k1 + k2)%nat with
        | O => (nzero, s)
        | _ =>
          let '(ex, rest) := read_exp (if (k2 =? 0)%nat then (match r1 with 46 :: r => (match k1 with O => r1 | _ => r end) | _ => r1 end) else r2) in
          let k := ex - Z.of_nat k2 in
          (if v2 =? 0 then B754_zero neg
           else if 0 <=? k then round_q neg (v2 * 10 ^ k) 1 else round_q neg v2 (10 ^ (- k)), rest)
        end
      end
    end
  end.

