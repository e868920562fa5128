(** Decimal texts of numbers, and which of them stands for a float: nothing here
    mentions how digits are computed. *)
From Coq Require Import QArith Qabs.
From Verif Require Export SpecFloat64 SpecLex.
Open Scope Q_scope.

(** q * 10^p *)
Definition tens (q p : Z) : Q := inject_Z q * 10 ^ p.

(** [decimal_text t x]: the digits [t], with or without a point among them, are the number [x] *)
Inductive decimal_text : str -> Q -> Prop :=
| dt_whole a : a <> [] -> Forall digit a -> decimal_text a (tens (Z.of_N (decimal a)) 0)
| dt_point a b : a <> [] -> b <> [] -> Forall digit a -> Forall digit b ->
    decimal_text (a ++ 46%N :: b) (tens (Z.of_N (decimal (a ++ b))) (- Z.of_nat (length b))).
(** without superfluous zeros: [0] in front only alone or before the point, none at the end after the point *)
Definition tidy (t : str) : Prop :=
  (forall c r, t = 48%N :: c :: r -> c = 46%N) /\ (forall a b, t = a ++ 46%N :: b -> last b 0%N <> 48%N).

(** [digits n x]: [n] decimal digits suffice for [x], apart from zeros in front and at the end *)
Definition digits (n : Z) (x : Q) : Prop := exists q p, (0 < q < 10 ^ n)%Z /\ x == tens q p.

(** [shortest_of f v x]: [x] rounds to the float [f], whose exact value is [v], no number
    with fewer digits does, and none with as many digits which does is nearer to [v] *)
Definition shortest_of (f : f64) (v x : Q) : Prop :=
  rounded x f /\ exists n, digits n x /\
    (forall y, digits (n - 1) y -> ~ rounded y f) /\
    (forall y, digits n y -> rounded y f -> Qabs (x - v) <= Qabs (y - v)).

Definition sign_text (s : bool) : str := if s then lit "-" else [].
(** a text with an exponent: one digit other than 0 before the point, then e and the power of ten *)
Definition exponent_text (t : str) (x : Q) : Prop :=
  exists a b y z, t = a ++ lit "e" ++ sign_text (Z.ltb z 0) ++ b /\ decimal_text a y /\ tidy a /\ 1 <= y < 10 /\
    b <> [] /\ Forall digit b /\ tidy b /\ Z.of_N (decimal b) = Z.abs z /\ x == y * 10 ^ z.

(** how a float is printed *)
Inductive shown_float : f64 -> str -> Prop :=
| sf_nan : shown_float S754_nan (lit "NaN")
| sf_inf s : shown_float (S754_infinity s) (sign_text s ++ lit "inf")
| sf_zero s : shown_float (S754_zero s) (sign_text s ++ lit "0")
| sf_finite s m e t x : decimal_text t x -> tidy t -> shortest_of (S754_finite false m e) (scaled (Zpos m) e) x ->
    shown_float (S754_finite s m e) (sign_text s ++ t).
(** how it is shown inside of arrays and maps: always with a point or an exponent *)
Inductive debugged_float : f64 -> str -> Prop :=
| bf_nan : debugged_float S754_nan (lit "NaN")
| bf_inf s : debugged_float (S754_infinity s) (sign_text s ++ lit "inf")
| bf_zero s : debugged_float (S754_zero s) (sign_text s ++ lit "0.0")
| bf_point s m e t x : 1 # 10000 <= scaled (Zpos m) e < 10 ^ 16 -> decimal_text t x -> tidy t -> In 46%N t ->
    shortest_of (S754_finite false m e) (scaled (Zpos m) e) x -> debugged_float (S754_finite s m e) (sign_text s ++ t)
| bf_whole s m e t x : 1 # 10000 <= scaled (Zpos m) e < 10 ^ 16 -> decimal_text t x -> tidy t -> ~ In 46%N t ->
    shortest_of (S754_finite false m e) (scaled (Zpos m) e) x -> debugged_float (S754_finite s m e) (sign_text s ++ t ++ lit ".0")
| bf_exponent s m e t x : scaled (Zpos m) e < 1 # 10000 \/ 10 ^ 16 <= scaled (Zpos m) e -> exponent_text t x ->
    shortest_of (S754_finite false m e) (scaled (Zpos m) e) x -> debugged_float (S754_finite s m e) (sign_text s ++ t).

(** ** durations *)
(** the units and how many nanoseconds they are *)
Definition time_units : list (str * Z) := [(lit "ns", 1); (181%N :: lit "s", 10 ^ 3); (lit "ms", 10 ^ 6); (lit "s", 10 ^ 9)]%Z.
(** the exact duration, in the unit in which it is at least one and, but for seconds, below a thousand *)
Definition duration_text (ns : N) (t : str) : Prop :=
  exists a x u k, t = a ++ u /\ decimal_text a x /\ tidy a /\ In (u, k) time_units /\ x * inject_Z k == inject_Z (Z.of_N ns) /\
    (1 <= x \/ ns = 0%N /\ u = lit "ns") /\ (x < 1000 \/ u = lit "s").
