(** C11-C15, C63 *)
From Verif Require Import SpecValue ValueProofs EqualityProofs Utf8Proofs ValueExamples.
Open Scope Z_scope.

(** C11 *)
Theorem C11_add : forall w a b, exact_or_overflow w (a + b) (binop w KAdd (VInt a) (VInt b)).
Proof. exact add_spec. Qed.
Print Assumptions C11_add.
Theorem C11_sub : forall w a b, exact_or_overflow w (a - b) (binop w KSub (VInt a) (VInt b)).
Proof. exact sub_spec. Qed.
Print Assumptions C11_sub.
Theorem C11_mul : forall w a b, exact_or_overflow w (a * b) (binop w KMul (VInt a) (VInt b)).
Proof. exact mul_spec. Qed.
Print Assumptions C11_mul.
Theorem C11_neg : forall w a, exact_or_overflow w (- a) (unop w KSub (VInt a)).
Proof. exact neg_spec. Qed.
Print Assumptions C11_neg.
Theorem C11_xor : forall w a b, fits a -> fits b -> bitwise xorb a b (binop w KBx (VInt a) (VInt b)).
Proof. exact xor_spec. Qed.
Print Assumptions C11_xor.
Theorem C11_or : forall w a b, fits a -> fits b -> bitwise orb a b (binop w KBo (VInt a) (VInt b)).
Proof. exact or_spec. Qed.
Print Assumptions C11_or.
Theorem C11_and : forall w a b, fits a -> fits b -> bitwise andb a b (binop w KBa (VInt a) (VInt b)).
Proof. exact and_spec. Qed.
Print Assumptions C11_and.
Theorem C11_not : forall w a, fits a -> bitwise (fun x _ => negb x) a a (unop w KNot (VInt a)).
Proof. exact not_spec. Qed.
Print Assumptions C11_not.
Theorem C11_shl : forall w a b, fits a ->
  (0 <= b < 64 -> exists c, wraps (a * 2 ^ b) c /\ binop w KSl (VInt a) (VInt b) = Ok (VInt c)) /\
  (~ 0 <= b < 64 -> h_checks (e_host w) = true -> binop w KSl (VInt a) (VInt b) = Panic) /\
  (~ 0 <= b < 64 -> h_checks (e_host w) = false ->
     exists c, wraps (a * 2 ^ (b mod 64)) c /\ binop w KSl (VInt a) (VInt b) = Ok (VInt c)).
Proof. exact shl_spec. Qed.
Print Assumptions C11_shl.
Theorem C11_shr : forall w a b, fits a ->
  (0 <= b < 64 -> fits (a / 2 ^ b) /\ binop w KSr (VInt a) (VInt b) = Ok (VInt (a / 2 ^ b))) /\
  (~ 0 <= b < 64 -> h_checks (e_host w) = true -> binop w KSr (VInt a) (VInt b) = Panic) /\
  (~ 0 <= b < 64 -> h_checks (e_host w) = false ->
     fits (a / 2 ^ (b mod 64)) /\ binop w KSr (VInt a) (VInt b) = Ok (VInt (a / 2 ^ (b mod 64)))).
Proof. exact shr_spec. Qed.
Print Assumptions C11_shr.

Example C11_example : fits 9223372036854775807 /\ fits 1 /\
  binop release KAdd (VInt 9223372036854775807) (VInt 1) = Ok (VInt (-9223372036854775808)) /\
  binop debug KAdd (VInt 9223372036854775807) (VInt 1) = Panic /\
  binop release KSl (VInt 1) (VInt (-1)) = Ok (VInt (-9223372036854775808)) /\
  binop debug KBx (VInt (-1)) (VInt 5) = Ok (VInt (-6)) /\ unop debug KNot (VInt 0) = Ok (VInt (-1)).
Proof. unfold fits. vm_compute. repeat split; congruence. Qed.

(** C12 *)
Theorem C12_division : forall w a b, fits a -> fits b ->
  ((b = 0 \/ (a = - 2 ^ 63 /\ b = -1)) ->
     binop w KDiv (VInt a) (VInt b) = Panic /\ binop w KRem (VInt a) (VInt b) = Panic) /\
  (~ (b = 0 \/ (a = - 2 ^ 63 /\ b = -1)) -> exists q r,
     binop w KDiv (VInt a) (VInt b) = Ok (VInt q) /\ binop w KRem (VInt a) (VInt b) = Ok (VInt r) /\
     fits q /\ fits r /\ a = b * q + r /\ Z.abs r < Z.abs b /\ 0 <= r * a).
Proof. exact division. Qed.
Print Assumptions C12_division.

Example C12_example : binop debug KDiv (VInt (-7)) (VInt 2) = Ok (VInt (-3)) /\ binop debug KRem (VInt (-7)) (VInt 2) = Ok (VInt (-1)) /\
  binop release KDiv (VInt 1) (VInt 0) = Panic /\ binop release KRem (VInt (-9223372036854775808)) (VInt (-1)) = Panic.
Proof. vm_compute. repeat split. Qed.

(** C13 *)
Theorem C13_promotes : forall w k v1 v2 x y,
  arithmetic k -> as_float v1 x -> as_float v2 y -> binary64 x -> binary64 y -> ~ both_int v1 v2 ->
  exists r, binop w k v1 v2 = Ok (VFloat r) /\ forall r', float_op k x y r' <-> r' = r.
Proof. exact promotes. Qed.
Print Assumptions C13_promotes.
Theorem C13_nearest : forall v, is_number v -> exists f, as_float v f /\ forall f', as_float v f' -> f' = f.
Proof. exact as_float_total. Qed.
Print Assumptions C13_nearest.
Theorem C13_concatenates : forall w a b, binop w KAdd (VStr a) (VStr b) = Ok (VStr (a ++ b)).
Proof. exact concat. Qed.
Print Assumptions C13_concatenates.
Theorem C13_arithmetic_mismatch : forall w k v1 v2,
  arithmetic k -> ~ (is_number v1 /\ is_number v2) -> ~ (k = KAdd /\ both_str v1 v2) ->
  type_error w k v1 v2 (binop w k v1 v2).
Proof. exact mismatch. Qed.
Print Assumptions C13_arithmetic_mismatch.
Theorem C13_bit_mismatch : forall w k v1 v2, bit_operator k -> ~ both_int v1 v2 -> type_error w k v1 v2 (binop w k v1 v2).
Proof. exact bit_mismatch. Qed.
Print Assumptions C13_bit_mismatch.
Theorem C13_aborts : forall w k v1 v2, binop w k v1 v2 = Panic ->
  exists a b, v1 = VInt a /\ v2 = VInt b /\
    ((exists z, h_checks (e_host w) = true /\ ~ fits z /\
                ((k = KAdd /\ z = a + b) \/ (k = KSub /\ z = a - b) \/ (k = KMul /\ z = a * b))) \/
     ((k = KSl \/ k = KSr) /\ h_checks (e_host w) = true /\ ~ 0 <= b < 64) \/
     ((k = KDiv \/ k = KRem) /\ (b = 0 \/ (a = - 2 ^ 63 /\ b = -1)))).
Proof. exact panics. Qed.
Print Assumptions C13_aborts.

Example C13_example :   (* 1 + 0.5, and a type error *)
  binop debug KAdd (VInt 1) (VFloat (S754_finite false 4503599627370496 (-53))) =
    Ok (VFloat (S754_finite false 6755399441055744 (-52))) /\
  (exists e, binop debug KSub (VStr (lit "a")) (VInt 1) = Err e /\ everr_text (e_host debug) e = lit "type mismatch: a - 1").
Proof. split; [vm_compute; reflexivity|]. eexists. split; [vm_compute; reflexivity|]. vm_compute. reflexivity. Qed.
Example C13_float_example : exists x y z r,
  as_float (VInt (2 ^ 53 + 1)) x /\ binary64 x /\ x = S754_finite false (2 ^ 52) 1 /\
  float_literal (lit "0.1") y /\ float_literal (lit "0.2") z /\ binary64 y /\ binary64 z /\
  float_literal (lit "0.30000000000000004") r /\ float_op KAdd y z r /\
  binop debug KAdd (VFloat y) (VFloat z) = Ok (VFloat r).
Proof. exact promotes_example. Qed.

(** C14 *)
Theorem C14_laws : forall w a b,
  (forall k, In k [KLt; KGt; KLe; KGe; KEq; KNe] -> holds w a b k \/ fails w a b k) /\
  (holds w a b KLt <-> holds w b a KGt) /\
  (holds w a b KLe <-> holds w b a KGe) /\
  (holds w a b KLt -> holds w a b KLe /\ fails w a b KGe) /\
  (holds w a b KGt -> holds w a b KGe /\ fails w a b KLe) /\
  (holds w a b KLe -> holds w a b KGe -> fails w a b KLt /\ fails w a b KGt) /\
  (holds w a b KNe <-> fails w a b KEq) /\
  (comparable a b -> holds w a b KLe \/ holds w a b KGt) /\
  (comparable a b -> holds w a b KGe \/ holds w a b KLt) /\
  (~ comparable a b -> fails w a b KLt /\ fails w a b KGt /\ fails w a b KLe /\ fails w a b KGe).
Proof. exact comparison_laws. Qed.
Print Assumptions C14_laws.
Theorem C14_integers : forall w a b,
  (holds w (VInt a) (VInt b) KLt <-> a < b) /\ (holds w (VInt a) (VInt b) KLe <-> a <= b) /\
  (holds w (VInt a) (VInt b) KGt <-> a > b) /\ (holds w (VInt a) (VInt b) KGe <-> a >= b) /\
  (holds w (VInt a) (VInt b) KEq <-> a = b).
Proof. exact int_order. Qed.
Print Assumptions C14_integers.
Theorem C14_strings : forall w a b, scalars a -> scalars b ->
  (holds w (VStr a) (VStr b) KLt <-> lex_lt (utf8 a) (utf8 b)) /\
  (holds w (VStr a) (VStr b) KGt <-> lex_lt (utf8 b) (utf8 a)) /\
  (holds w (VStr a) (VStr b) KLe <-> ~ lex_lt (utf8 b) (utf8 a)) /\
  (holds w (VStr a) (VStr b) KGe <-> ~ lex_lt (utf8 a) (utf8 b)) /\
  (holds w (VStr a) (VStr b) KEq <-> a = b).
Proof. exact string_order. Qed.
Print Assumptions C14_strings.
Theorem C14_byte_order_is_total : forall a b, 
  (lex_lt a b \/ a = b \/ lex_lt b a) /\ (lex_lt a b -> ~ lex_lt b a) /\ ~ lex_lt a a /\
  (forall c, lex_lt a b -> lex_lt b c -> lex_lt a c).
Proof. exact lex_order. Qed.
Print Assumptions C14_byte_order_is_total.
Theorem C14_floats : forall w a b x y, as_float a x -> as_float b y -> binary64 x -> binary64 y -> ~ both_int a b ->
  (holds w a b KLt <-> float_cmp x y Lt) /\ (holds w a b KGt <-> float_cmp x y Gt) /\
  (holds w a b KLe <-> float_cmp x y Lt \/ float_cmp x y Eq) /\
  (holds w a b KGe <-> float_cmp x y Gt \/ float_cmp x y Eq).
Proof. exact float_order. Qed.
Print Assumptions C14_floats.
(** equality of an integer and a float fails even where both <= and >= hold *)
Theorem C14_eq_vs_order_refuted : exists a b, forall w, holds w a b KLe /\ holds w a b KGe /\ fails w a b KEq.
Proof. exact int_float_eq. Qed.
Print Assumptions C14_eq_vs_order_refuted.

Example C14_example : scalars (lit "ab") /\ holds debug (VStr (lit "ab")) (VStr [233%N]) KLt /\
  comparable (VInt 1) (VFloat (S754_zero false)) /\ ~ comparable (VInt 1) (VStr []).
Proof. split; [repeat constructor|]. split; [vm_compute; reflexivity|]. exact comparable_example. Qed.

(** C15 *)
Theorem C15_structural : forall w a b, unique_keys a -> unique_keys b -> (holds w a b KEq <-> same a b).
Proof. exact equality_same. Qed.
Print Assumptions C15_structural.
Theorem C15_reflexive : forall w a, unique_keys a -> nan_free a -> holds w a a KEq.
Proof. exact equality_refl. Qed.
Print Assumptions C15_reflexive.
Theorem C15_symmetric : forall w a b, unique_keys a -> unique_keys b -> holds w a b KEq -> holds w b a KEq.
Proof. exact equality_sym. Qed.
Print Assumptions C15_symmetric.
Theorem C15_transitive : forall w a b c, unique_keys a -> unique_keys b -> unique_keys c ->
  holds w a b KEq -> holds w b c KEq -> holds w a c KEq.
Proof. exact equality_trans. Qed.
Print Assumptions C15_transitive.

Example C15_example :
  let a := VMap [(lit "x", VInt 1); (lit "y", VArr [VNull])] in let b := VMap [(lit "y", VArr [VNull]); (lit "x", VInt 1)] in
  unique_keys a /\ unique_keys b /\ nan_free a /\ holds debug a b KEq /\ ~ same a (VMap [(lit "x", VInt 1)]).
Proof. exact map_example. Qed.

(** C63 *)
Theorem C63_round_trip : forall s, scalars s -> utf8_decode (utf8 s) = Some s.
Proof. exact decode_encode. Qed.
Print Assumptions C63_round_trip.
Theorem C63_well_formed : forall bs s, utf8_decode bs = Some s <-> scalars s /\ utf8 s = bs.
Proof. exact decode_iff. Qed.
Print Assumptions C63_well_formed.
Example C63_example : scalars [72; 233; 8364; 128512]%N /\ utf8 [72; 233; 8364; 128512]%N = [72; 195; 169; 226; 130; 172; 240; 159; 152; 128]%N /\
  utf8_decode [237; 160; 128]%N = None.
Proof. split; [repeat constructor|]. vm_compute. split; reflexivity. Qed.
