(** Binary64 numbers and correct rounding, over exact rationals; nothing here
    mentions an algorithm. *)
From Coq Require Import QArith Qabs.
From Verif Require Export F64 Token SpecLex.
Open Scope Q_scope.

(** m * 2^e *)
Definition scaled (m e : Z) : Q := inject_Z m * 2 ^ e.

(** the number a float stands for *)
Definition value_of (f : f64) : option Q :=
  match f with
  | S754_zero _ => Some 0
  | S754_finite s m e => Some (scaled (if s then Zneg m else Zpos m) e)
  | _ => None
  end.
(** it is finite and not a whole number *)
Definition has_fraction (f : f64) : Prop := exists v, value_of f = Some v /\ forall z, ~ v == inject_Z z.
(** its sign, which zeros and infinities have too *)
Definition sign_of (f : f64) : bool :=
  match f with
  | S754_zero s | S754_infinity s | S754_finite s _ _ => s
  | S754_nan => false
  end.

(** the floats of the format: 53 bits, the first one set unless the exponent is
    the least one *)
Definition binary64 (f : f64) : Prop :=
  match f with
  | S754_finite _ m e => (-1074 <= e <= 971 /\ Zpos m < 2 ^ 53 /\ (2 ^ 52 <= Zpos m \/ e = -1074))%Z
  | _ => True
  end.
Definition even_float (f : f64) : Prop :=
  match f with S754_finite _ m _ => Z.even (Zpos m) = true | _ => True end.

(** [f] is a number of 53 bits nearest to [x], the even one of two *)
Definition nearest (x : Q) (f : f64) : Prop :=
  exists r, value_of f = Some r /\
    forall m e, (Z.abs m < 2 ^ 53)%Z -> (-1074 <= e)%Z ->
      Qabs (x - r) <= Qabs (x - scaled m e) /\
      (Qabs (x - r) == Qabs (x - scaled m e) -> scaled m e == r \/ even_float f).

(** where infinity is nearer than the greatest finite float: (2^53 - 1/2) * 2^971 *)
Definition too_large : Q := scaled (2 ^ 54 - 1) 970.

(** [f] is [x] rounded to nearest, ties to even *)
Definition rounded (x : Q) (f : f64) : Prop :=
  binary64 f /\
  (0 < x -> sign_of f = false) /\ (x < 0 -> sign_of f = true) /\
  ((Qabs x < too_large /\ nearest x f) \/ (too_large <= Qabs x /\ exists s, f = S754_infinity s)).

(** the four operations *)
Definition is_nan_op (k : kind) (a b : f64) : Prop :=
  a = S754_nan \/ b = S754_nan \/
  match k with
  | KAdd => exists s, a = S754_infinity s /\ b = S754_infinity (negb s)
  | KSub => exists s, a = S754_infinity s /\ b = S754_infinity s
  | KMul => (exists s t, a = S754_infinity s /\ b = S754_zero t) \/ (exists s t, a = S754_zero s /\ b = S754_infinity t)
  | KDiv => (exists s t, a = S754_infinity s /\ b = S754_infinity t) \/ (exists s t, a = S754_zero s /\ b = S754_zero t)
  | KRem => (exists s, a = S754_infinity s) \/ (exists t, b = S754_zero t)
  | _ => False
  end.

(** [float_op k a b r]: [r] is what IEEE 754 prescribes for [a k b] *)
Inductive float_op : kind -> f64 -> f64 -> f64 -> Prop :=
| fo_nan k a b : is_nan_op k a b -> float_op k a b S754_nan
(* finite operands: the exact result rounded; an exact zero is negative only if both summands are *)
| fo_add a b x y r : value_of a = Some x -> value_of b = Some y -> rounded (x + y) r ->
    (x + y == 0 -> r = S754_zero (sign_of a && sign_of b)) -> float_op KAdd a b r
| fo_sub a b x y r : value_of a = Some x -> value_of b = Some y -> rounded (x - y) r ->
    (x - y == 0 -> r = S754_zero (sign_of a && negb (sign_of b))) -> float_op KSub a b r
| fo_mul a b x y r : value_of a = Some x -> value_of b = Some y -> rounded (x * y) r ->
    sign_of r = xorb (sign_of a) (sign_of b) -> float_op KMul a b r
| fo_div a b x y r : value_of a = Some x -> value_of b = Some y -> ~ y == 0 -> rounded (x / y) r ->
    sign_of r = xorb (sign_of a) (sign_of b) -> float_op KDiv a b r
| fo_rem a b x y r v n : value_of a = Some x -> value_of b = Some y -> ~ y == 0 -> value_of r = Some v ->
    binary64 r -> x == inject_Z n * y + v -> Qabs v < Qabs y -> 0 <= x * v -> sign_of r = sign_of a -> float_op KRem a b r
| fo_div_zero a x t : value_of a = Some x -> ~ x == 0 -> float_op KDiv a (S754_zero t) (S754_infinity (xorb (sign_of a) t))
(* infinities *)
| fo_add_inf_l s b : b <> S754_nan -> b <> S754_infinity (negb s) -> float_op KAdd (S754_infinity s) b (S754_infinity s)
| fo_add_inf_r a s : a <> S754_nan -> a <> S754_infinity (negb s) -> float_op KAdd a (S754_infinity s) (S754_infinity s)
| fo_sub_inf_l s b : b <> S754_nan -> b <> S754_infinity s -> float_op KSub (S754_infinity s) b (S754_infinity s)
| fo_sub_inf_r a s : a <> S754_nan -> a <> S754_infinity s -> float_op KSub a (S754_infinity s) (S754_infinity (negb s))
| fo_mul_inf_l s b : b <> S754_nan -> (forall t, b <> S754_zero t) -> float_op KMul (S754_infinity s) b (S754_infinity (xorb s (sign_of b)))
| fo_mul_inf_r a s : a <> S754_nan -> (forall t, a <> S754_zero t) -> float_op KMul a (S754_infinity s) (S754_infinity (xorb (sign_of a) s))
| fo_div_inf_l s b y : value_of b = Some y -> float_op KDiv (S754_infinity s) b (S754_infinity (xorb s (sign_of b)))
| fo_div_inf_r a s x : value_of a = Some x -> float_op KDiv a (S754_infinity s) (S754_zero (xorb (sign_of a) s))
| fo_rem_inf a s x : value_of a = Some x -> float_op KRem a (S754_infinity s) a.

(** the order of floats: NaN is unordered, zeros are equal *)
Inductive float_cmp : f64 -> f64 -> comparison -> Prop :=
| fc_finite a b x y : value_of a = Some x -> value_of b = Some y -> float_cmp a b (x ?= y)
| fc_inf_l s b y : value_of b = Some y -> float_cmp (S754_infinity s) b (if s then Lt else Gt)
| fc_inf_r a s x : value_of a = Some x -> float_cmp a (S754_infinity s) (if s then Gt else Lt)
| fc_inf s t : float_cmp (S754_infinity s) (S754_infinity t)
    (match s, t with true, false => Lt | false, true => Gt | _, _ => Eq end).

(** the literal [a.b] stands for the decimal fraction, rounded *)
Definition float_literal (l : str) (f : f64) : Prop :=
  exists a b : str, l = a ++ 46%N :: b /\ Forall digit a /\ Forall digit b /\ a ++ b <> [] /\
    rounded (inject_Z (Z.of_N (decimal (a ++ b))) / 10 ^ Z.of_nat (length b)) f /\ sign_of f = false.
