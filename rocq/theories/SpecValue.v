(** Values, independently of value.rs: 64-bit integers, IEEE operations, when two
    values are the same, and what an operator does to two values, observed by
    evaluating it on two variables. *)
From Verif Require Export Evaluator SpecFloat64.
Open Scope Z_scope.

(** The result of evaluating [a k b] with [v1] and [v2] in the variables a and b *)
Definition binop (w : env) (k : kind) (v1 v2 : value) : res :=
  fst (eval_expr w (EBin (Tok k []) (EIdent (lit "a")) (EIdent (lit "b")))
                 (St (Ctx [(lit "a", v1); (lit "b", v2)] [] []) [])).
(** The result of evaluating [k a] with [v] in the variable a *)
Definition unop (w : env) (k : kind) (v : value) : res :=
  fst (eval_expr w (EUn (Tok k []) (EIdent (lit "a"))) (St (Ctx [(lit "a", v)] [] []) [])).

(** 64-bit signed integers *)
Definition fits (z : Z) : Prop := - 2 ^ 63 <= z < 2 ^ 63.
(** [wraps z c]: [c] is the 64-bit integer congruent to [z] modulo 2^64 *)
Definition wraps (z c : Z) : Prop := fits c /\ exists k, z = c + k * 2 ^ 64.

(** What an exact integer result [z] turns into *)
Definition exact_or_overflow (w : env) (z : Z) (r : res) : Prop :=
  (fits z -> r = Ok (VInt z)) /\
  (~ fits z -> h_checks (e_host w) = true -> r = Panic) /\
  (~ fits z -> h_checks (e_host w) = false -> exists c, wraps z c /\ r = Ok (VInt c)).

(** [c] is bit by bit [f] of [a] and [b] *)
Definition bitwise (f : bool -> bool -> bool) (a b : Z) (r : res) : Prop :=
  exists c, r = Ok (VInt c) /\ fits c /\ forall i, 0 <= i -> Z.testbit c i = f (Z.testbit a i) (Z.testbit b i).

Definition arithmetic (k : kind) : Prop := In k [KAdd; KSub; KMul; KDiv; KRem].
Definition bit_operator (k : kind) : Prop := In k [KBx; KBo; KBa; KSl; KSr].
Definition op_text (k : kind) : str :=
  match k with
  | KAdd => lit "+" | KSub => lit "-" | KMul => lit "*" | KDiv => lit "/" | KRem => lit "%"
  | KBx => lit "^" | KBo => lit "|" | KBa => lit "&" | KSl => lit "<<" | KSr => lit ">>"
  | _ => []
  end.

Inductive is_number : value -> Prop :=
| num_int z : is_number (VInt z)
| num_float f : is_number (VFloat f).
(** [as_float v f]: [f] is the number [v], integers rounded to binary64 *)
Inductive as_float : value -> f64 -> Prop :=
| af_int z f : rounded (QArith_base.inject_Z z) f -> sign_of f = (z <? 0) -> as_float (VInt z) f
| af_float f : as_float (VFloat f) f.
Definition both_int (v1 v2 : value) : Prop := exists a b, v1 = VInt a /\ v2 = VInt b.
Definition both_str (v1 v2 : value) : Prop := exists a b, v1 = VStr a /\ v2 = VStr b.

(** The type error of [v1 k v2] *)
Definition type_error (w : env) (k : kind) (v1 v2 : value) (r : res) : Prop :=
  exists e, r = Err e /\
    everr_text (e_host w) e =
      lit "type mismatch: " ++ show_value (e_host w) v1 ++ lit " " ++ op_text k ++ lit " " ++ show_value (e_host w) v2.

(** Lexicographic order *)
Inductive lex_lt : list N -> list N -> Prop :=
| lex_nil y b : lex_lt [] (y :: b)
| lex_head x y a b : (x < y)%N -> lex_lt (x :: a) (y :: b)
| lex_tail x a b : lex_lt a b -> lex_lt (x :: a) (x :: b).

Section Ordered.
  Variables (w : env) (v1 v2 : value).
  (** the truth of the comparison [v1 k v2] *)
  Definition holds (k : kind) : Prop := binop w k v1 v2 = Ok (VBool true).
  Definition fails (k : kind) : Prop := binop w k v1 v2 = Ok (VBool false).
End Ordered.

Inductive comparable : value -> value -> Prop :=
| cmp_str a b : comparable (VStr a) (VStr b)
| cmp_int a b : comparable (VInt a) (VInt b)
| cmp_num a b x y : as_float a x -> as_float b y -> x <> S754_nan -> y <> S754_nan -> comparable a b.

(** Structural equality: like the parts, except that NaN is not the same as itself
    and the two zeros are the same; maps key by key *)
Inductive same : value -> value -> Prop :=
| same_null : same VNull VNull
| same_int z : same (VInt z) (VInt z)
| same_float x : x <> S754_nan -> same (VFloat x) (VFloat x)
| same_zero s t : same (VFloat (S754_zero s)) (VFloat (S754_zero t))
| same_bool b : same (VBool b) (VBool b)
| same_str s : same (VStr s) (VStr s)
| same_arr a b : same_list a b -> same (VArr a) (VArr b)
| same_map a b :
    (forall k, mget k a = None <-> mget k b = None) ->
    (forall k x y, mget k a = Some x -> mget k b = Some y -> same x y) ->
    same (VMap a) (VMap b)
with same_list : list value -> list value -> Prop :=
| same_nil : same_list [] []
| same_cons x y a b : same x y -> same_list a b -> same_list (x :: a) (y :: b).

(** A value in which every map has unique keys, as a HashMap has *)
Fixpoint unique_keys (v : value) : Prop :=
  match v with
  | VArr items => (fix all l := match l with [] => True | v :: l => unique_keys v /\ all l end) items
  | VMap pairs =>
      NoDup (map fst pairs) /\ (fix all (l : amap value) := match l with [] => True | (_, v) :: l => unique_keys v /\ all l end) pairs
  | _ => True
  end.
(** No NaN anywhere in the value *)
Fixpoint nan_free (v : value) : Prop :=
  match v with
  | VFloat f => f <> S754_nan
  | VArr items => (fix all l := match l with [] => True | v :: l => nan_free v /\ all l end) items
  | VMap pairs => (fix all (l : amap value) := match l with [] => True | (_, v) :: l => nan_free v /\ all l end) pairs
  | _ => True
  end.

(** The text consists of Unicode scalar values, as every Rust string does *)
Definition scalars (s : str) : Prop := Forall (fun c => is_scalar c = true) s.
