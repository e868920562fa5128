(** How the standard library shows floats, quoted text and durations; used at
    value.rs:32-36, syntax.rs:73, context.rs:113-122.  The digits of a float are found
    by search instead of core::num::flt2dec's arithmetic. *)
From Verif Require Export F64.
Open Scope Z_scope.

(** ** floats *)
(** the float nearest to n / d, for positive n and d; value.rs:32 *)
Definition f64_of_ratio (n d : Z) : f64 :=
  let '(m, e, l) := SFdiv_core_binary 53 1024 n 0 d 0 in binary_round_aux 53 1024 false m e l.
(** m * 2^e as a fraction; value.rs:32 *)
Definition f64_ratio (m : positive) (e : Z) : Z * Z :=
  if 0 <=? e then (Zpos m * 2 ^ e, 1) else (Zpos m, 2 ^ (- e)).
(** n / d divided by 10^p, as a fraction; value.rs:32 *)
Definition scale10 (n d p : Z) : Z * Z :=
  if 0 <=? p then (n, d * 10 ^ p) else (n * 10 ^ (- p), d).
(** does q * 10^p read back as [f]; value.rs:32 *)
Definition reads_back (f : f64) (q p : Z) : bool :=
  let (d, n) := scale10 1 q p in f64_eqb (f64_of_ratio n d) f.

(** From the power 10^p downwards: the first at which the multiple below or the one
    above n / d reads back as [f]; if both do, the nearer one, the upper one of two.
    flt2dec::strategy::dragon::format_shortest; value.rs:32 *)
Fixpoint shortest (fuel : nat) (f : f64) (n d p : Z) : Z * Z :=
  match fuel with
  | O => (0, 0)
  | S fuel' =>
      let (n', d') := scale10 n d p in
      let q := n' / d' in
      if q =? 0 then shortest fuel' f n d (p - 1)
      else
        let lo := reads_back f q p in
        let hi := reads_back f (q + 1) p in
        if hi && (negb lo || (d' <=? 2 * (n' mod d'))) then (q + 1, p)
        else if lo then (q, p)
        else shortest fuel' f n d (p - 1)
  end.

(** a power of ten which exceeds n / d; value.rs:32 *)
Definition start10 (n d : Z) : Z :=
  let c := Z.log2 n - Z.log2 d + 1 in if 0 <=? c then c / 3 + 1 else c / 4 + 1.

(** without the zeros at the end; value.rs:32 *)
Definition strip_zeros (s : str) : str := rev (drop_while (N.eqb 48) (rev s)).

(** The digits d1 d2 ... without superfluous zeros and the x for which
    0.d1d2... * 10^x is shown; value.rs:32 *)
Definition f64_digits (m : positive) (e : Z) : str * Z :=
  let (n, d) := f64_ratio m e in
  let p := start10 n d in
  let (q, p') := shortest (Z.to_nat (p + 1075)) (S754_finite false m e) n d p in
  let ds := show_N (Z.to_N q) in
  (strip_zeros ds, p' + Z.of_nat (length ds)).

(** value.rs:32 *)
Definition zeros (n : Z) : str := repeat 48%N (Z.to_nat n).

(** core::num::flt2dec::digits_to_dec_str; [point]: with at least one digit after the point; value.rs:32 *)
Definition dec_text (point : bool) (ds : str) (x : Z) : str :=
  let len := Z.of_nat (length ds) in
  if x <=? 0 then lit "0." ++ zeros (- x) ++ ds
  else if x <? len then firstn (Z.to_nat x) ds ++ lit "." ++ skipn (Z.to_nat x) ds
  else ds ++ zeros (x - len) ++ (if point then lit ".0" else []).
(** core::num::flt2dec::digits_to_exp_str; value.rs:34 *)
Definition exp_text (ds : str) (x : Z) : str :=
  match ds with
  | [] => []
  | [c] => [c]
  | c :: r => c :: lit "." ++ r
  end ++ lit "e" ++ show_Z (x - 1).

(** value.rs:32 *)
Definition minus (s : bool) : str := if s then lit "-" else [].

(** Display for f64; value.rs:32, syntax.rs:73 *)
Definition show_f64 (f : f64) : str :=
  match f with
  | S754_nan => lit "NaN"
  | S754_infinity s => minus s ++ lit "inf"
  | S754_zero s => minus s ++ lit "0"
  | S754_finite s m e => let (ds, x) := f64_digits m e in minus s ++ dec_text false ds x
  end.

(** from 1e16 on and below 1e-4 with an exponent; core::fmt::float, value.rs:34 *)
Definition use_exp (m : positive) (e : Z) : bool :=
  let a := S754_finite false m e in
  SFleb (f64_of_ratio (10 ^ 16) 1) a || SFltb a (f64_of_ratio 1 (10 ^ 4)).
(** Debug for f64; value.rs:34-35 *)
Definition debug_f64 (f : f64) : str :=
  match f with
  | S754_nan => lit "NaN"
  | S754_infinity s => minus s ++ lit "inf"
  | S754_zero s => minus s ++ lit "0.0"
  | S754_finite s m e =>
      let (ds, x) := f64_digits m e in minus s ++ (if use_exp m e then exp_text ds x else dec_text true ds x)
  end.

(** ** quoted text *)
Open Scope N_scope.
(** value.rs:34 *)
Definition hex_char (d : N) : char := if d <? 10 then 48 + d else 87 + d.
(** char::escape_unicode, hexadecimal without leading zeros; value.rs:34 *)
Fixpoint hex_text (fuel : nat) (n : N) (acc : str) : str :=
  match fuel with
  | O => acc
  | S fuel' => let acc' := hex_char (n mod 16) :: acc in if n / 16 =? 0 then acc' else hex_text fuel' (n / 16) acc'
  end.
(** char::escape_debug_ext; [plain] tells which characters are shown as they are; value.rs:34 *)
Definition escape_char (plain : char -> bool) (c : char) : str :=
  match c with
  | 0 => lit "\0"
  | 9 => lit "\t"
  | 13 => lit "\r"
  | 10 => lit "\n"
  | 34 => lit "\"""
  | 92 => lit "\\"
  | _ => if plain c then [c] else lit "\u{" ++ hex_text 8 c [] ++ lit "}"
  end.
(** Debug for str; value.rs:34-36 *)
Definition debug_str (plain : char -> bool) (s : str) : str := [34] ++ flat_map (escape_char plain) s ++ [34].

(** ** durations *)
(** the digits of a fraction, the first worth [div]; core::time fmt_decimal; context.rs:120 *)
Fixpoint frac_digits (fuel : nat) (frac div : N) : str :=
  match fuel with
  | O => []
  | S fuel' => if frac =? 0 then [] else (48 + frac / div) :: frac_digits fuel' (frac mod div) (div / 10)
  end.
(** core::time fmt_decimal without precision; context.rs:120 *)
Definition fmt_decimal (int frac div : N) (unit : str) : str :=
  show_N int ++ match frac_digits 9 frac div with [] => [] | ds => lit "." ++ ds end ++ unit.
(** Debug for Duration, in nanoseconds; context.rs:120 *)
Definition show_duration (ns : N) : str :=
  let secs := ns / 1000000000 in
  let nanos := ns mod 1000000000 in
  if 0 <? secs then fmt_decimal secs nanos 100000000 (lit "s")
  else if 1000000 <=? nanos then fmt_decimal (nanos / 1000000) (nanos mod 1000000) 100000 (lit "ms")
  else if 1000 <=? nanos then fmt_decimal (nanos / 1000) (nanos mod 1000) 100 (181 :: lit "s")
  else fmt_decimal nanos 0 1 (lit "ns").
