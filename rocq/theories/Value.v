(** lib/src/value.rs, and Expr::eval of lib/src/syntax.rs:33-50 *)
From Verif Require Export Syntax Parser.
Open Scope Z_scope.

(** value.rs:16-25 *)
Inductive value : Type :=
| VNull
| VInt (z : Z)
| VFloat (f : f64)
| VBool (b : bool)
| VStr (s : str)
| VArr (items : list value)
| VMap (pairs : amap value).

(** #[derive(Debug)] value.rs:16 *)
Fixpoint debug_value (h : host) (v : value) : str :=
  match v with
  | VNull => lit "Null"
  | VInt z => lit "Integer(" ++ show_Z z ++ lit ")"
  | VFloat f => lit "Float(" ++ debug_f64 f ++ lit ")"
  | VBool b => lit "Boolean(" ++ show_bool b ++ lit ")"
  | VStr s => lit "String(" ++ debug_str (h_plain h) s ++ lit ")"
  | VArr items => lit "Array([" ++ join (lit ", ") (map (debug_value h) items) ++ lit "])"
  | VMap pairs =>
      let shown := map (fun kv => (fst kv, debug_str (h_plain h) (fst kv) ++ lit ": " ++ debug_value h (snd kv))) pairs in
      lit "Map({" ++ join (lit ", ") (map (fun k => match mget k shown with Some x => x | None => [] end)
                                          (h_order h (map fst pairs))) ++ lit "})"
  end.

(** Display for Value, value.rs:27-39 ([Vec] and [HashMap] use Debug) *)
Definition show_value (h : host) (v : value) : str :=
  match v with
  | VNull => lit "null"
  | VInt z => show_Z z
  | VFloat f => show_f64 f
  | VBool b => show_bool b
  | VStr s => s
  | VArr items => lit "[" ++ join (lit ", ") (map (debug_value h) items) ++ lit "]"
  | VMap pairs =>
      let shown := map (fun kv => (fst kv, debug_str (h_plain h) (fst kv) ++ lit ": " ++ debug_value h (snd kv))) pairs in
      lit "{" ++ join (lit ", ") (map (fun k => match mget k shown with Some x => x | None => [] end)
                                      (h_order h (map fst pairs))) ++ lit "}"
  end.

(** The [Err(String)]s of value.rs, native.rs and evaluator.rs as data;
    [everr_text] renders the texts given in the code;
    value.rs:50-152, native.rs:34-72, evaluator.rs:83-229 *)
Inductive everr : Type :=
| ETypeMismatch (op : str) (l r : value)          (* value.rs:50,63,76,89,102,112,122,132,142,152 *)
| EIndexUnsupported (v : value)                   (* evaluator.rs:83 *)
| EFieldUnsupported (v : value)                   (* evaluator.rs:97 *)
| EIdentNotFound (n : str)                        (* evaluator.rs:104 *)
| EUnaryUnknown (t : token) (v : value)           (* evaluator.rs:122 *)
| EBinaryUnsupported (t : token) (l r : expr)     (* evaluator.rs:152 *)
| EArgCount (got want : nat)                      (* native.rs:34,49 *)
| ENeedParameter                                  (* native.rs:42,58,71 *)
| EFirstString                                    (* native.rs:43 *)
| EFirstArray                                     (* native.rs:72 *)
| ELengthType (v : value)                         (* native.rs:55 *)
| EFunctionNotFound (n : str).                    (* evaluator.rs:229 *)

(** value.rs:50-152, native.rs:34-72, evaluator.rs:83-229 *)
Definition everr_text (h : host) (e : everr) : str :=
  match e with
  | ETypeMismatch op l r =>
      lit "type mismatch: " ++ show_value h l ++ lit " " ++ op ++ lit " " ++ show_value h r
  | EIndexUnsupported v => lit "index operator not support: " ++ debug_value h v
  | EFieldUnsupported v => lit "field operator not support: " ++ debug_value h v
  | EIdentNotFound n => lit "ident:" ++ n ++ lit " not found"
  | EUnaryUnknown t v => lit "unknown operator: " ++ tlit t ++ debug_value h v
  | EBinaryUnsupported t l r =>
      lit "not support operator: " ++ show_expr l ++ lit " " ++ tlit t ++ lit " " ++ show_expr r
  | EArgCount got want => lit "wrong number of arguments. got=" ++ show_nat got ++ lit ", want=" ++ show_nat want
  | ENeedParameter => lit "function length need a parameter"
  | EFirstString => lit "first parameter must be a string"
  | EFirstArray => lit "first parameter must be a array"
  | ELengthType v => lit "function length not supported type " ++ debug_value h v
  | EFunctionNotFound n => lit "function " ++ n ++ lit " not found"
  end.

(** value.rs:42 *)
Definition res := out everr value.

(** 64-bit two's complement; value.rs:19 *)
Definition i64_min : Z := - 2 ^ 63.
(** value.rs:45 *)
Definition in_i64 (z : Z) : bool := (i64_min <=? z) && (z <=? i64_max).
(** value.rs:45 *)
Definition wrap64 (z : Z) : Z := (z + 2 ^ 63) mod 2 ^ 64 - 2 ^ 63.

(** Rust integer arithmetic: exact when it fits; otherwise panic with overflow
    checks, wrap without (value.rs:45,59,72; evaluator.rs:120) *)
Definition arith (h : host) (z : Z) : res :=
  if in_i64 z then Ok (VInt z)
  else if h_checks h then Panic else Ok (VInt (wrap64 z)).

(** [/] and [%] on i64 panic on a zero divisor and on MIN / -1 in every build
    (value.rs:85,98) *)
Definition int_div (a b : Z) : res :=
  if b =? 0 then Panic
  else if (a =? i64_min) && (b =? -1) then Panic
  else Ok (VInt (Z.quot a b)).
(** value.rs:98 *)
Definition int_rem (a b : Z) : res :=
  if b =? 0 then Panic
  else if (a =? i64_min) && (b =? -1) then Panic
  else Ok (VInt (Z.rem a b)).

(** shifts check only the amount; an out-of-range amount is masked to six bits
    in unchecked builds (value.rs:141,151) *)
Definition int_shl (h : host) (a b : Z) : res :=
  if (0 <=? b) && (b <? 64) then Ok (VInt (wrap64 (Z.shiftl a b)))
  else if h_checks h then Panic else Ok (VInt (wrap64 (Z.shiftl a (b mod 64)))).
(** value.rs:151 *)
Definition int_shr (h : host) (a b : Z) : res :=
  if (0 <=? b) && (b <? 64) then Ok (VInt (Z.shiftr a b))
  else if h_checks h then Panic else Ok (VInt (Z.shiftr a (b mod 64))).

(** value.rs:41-53 *)
Definition value_add (h : host) (l r : value) : res :=
  match l, r with
  | VInt a, VInt b => arith h (a + b)
  | VFloat a, VFloat b => Ok (VFloat (f64_add a b))
  | VInt a, VFloat b => Ok (VFloat (f64_add (f64_of_int a) b))
  | VFloat a, VInt b => Ok (VFloat (f64_add a (f64_of_int b)))
  | VStr a, VStr b => Ok (VStr (a ++ b))
  | _, _ => Err (ETypeMismatch (lit "+") l r)
  end.
(** value.rs:55-66 *)
Definition value_sub (h : host) (l r : value) : res :=
  match l, r with
  | VInt a, VInt b => arith h (a - b)
  | VFloat a, VFloat b => Ok (VFloat (f64_sub a b))
  | VInt a, VFloat b => Ok (VFloat (f64_sub (f64_of_int a) b))
  | VFloat a, VInt b => Ok (VFloat (f64_sub a (f64_of_int b)))
  | _, _ => Err (ETypeMismatch (lit "-") l r)
  end.
(** value.rs:68-79 *)
Definition value_mul (h : host) (l r : value) : res :=
  match l, r with
  | VInt a, VInt b => arith h (a * b)
  | VFloat a, VFloat b => Ok (VFloat (f64_mul a b))
  | VInt a, VFloat b => Ok (VFloat (f64_mul (f64_of_int a) b))
  | VFloat a, VInt b => Ok (VFloat (f64_mul a (f64_of_int b)))
  | _, _ => Err (ETypeMismatch (lit "*") l r)
  end.
(** value.rs:81-92 *)
Definition value_div (l r : value) : res :=
  match l, r with
  | VInt a, VInt b => int_div a b
  | VFloat a, VFloat b => Ok (VFloat (f64_div a b))
  | VInt a, VFloat b => Ok (VFloat (f64_div (f64_of_int a) b))
  | VFloat a, VInt b => Ok (VFloat (f64_div a (f64_of_int b)))
  | _, _ => Err (ETypeMismatch (lit "/") l r)
  end.
(** value.rs:94-105 *)
Definition value_rem (l r : value) : res :=
  match l, r with
  | VInt a, VInt b => int_rem a b
  | VFloat a, VFloat b => Ok (VFloat (f64_rem a b))
  | VInt a, VFloat b => Ok (VFloat (f64_rem (f64_of_int a) b))
  | VFloat a, VInt b => Ok (VFloat (f64_rem a (f64_of_int b)))
  | _, _ => Err (ETypeMismatch (lit "%") l r)
  end.
(** value.rs:107-115 *)
Definition value_bitxor (l r : value) : res :=
  match l, r with
  | VInt a, VInt b => Ok (VInt (Z.lxor a b))
  | _, _ => Err (ETypeMismatch (lit "^") l r)
  end.
(** value.rs:117-125 *)
Definition value_bitor (l r : value) : res :=
  match l, r with
  | VInt a, VInt b => Ok (VInt (Z.lor a b))
  | _, _ => Err (ETypeMismatch (lit "|") l r)
  end.
(** value.rs:127-135 *)
Definition value_bitand (l r : value) : res :=
  match l, r with
  | VInt a, VInt b => Ok (VInt (Z.land a b))
  | _, _ => Err (ETypeMismatch (lit "&") l r)
  end.
(** value.rs:137-145 *)
Definition value_shl (h : host) (l r : value) : res :=
  match l, r with
  | VInt a, VInt b => int_shl h a b
  | _, _ => Err (ETypeMismatch (lit "<<") l r)
  end.
(** value.rs:147-155 *)
Definition value_shr (h : host) (l r : value) : res :=
  match l, r with
  | VInt a, VInt b => int_shr h a b
  | _, _ => Err (ETypeMismatch (lit ">>") l r)
  end.

(** str::partial_cmp: lexicographic.  Rust compares UTF-8 bytes; that order is
    the order of scalar values (Utf8Proofs.utf8_order); used at value.rs:164 *)
Fixpoint str_cmp (a b : str) : comparison :=
  match a, b with
  | [], [] => Eq
  | [], _ => Lt
  | _, [] => Gt
  | x :: a', y :: b' => match N.compare x y with Eq => str_cmp a' b' | c => c end
  end.

(** PartialOrd, value.rs:157-168 *)
Definition value_cmp (l r : value) : option comparison :=
  match l, r with
  | VInt a, VInt b => Some (Z.compare a b)
  | VFloat a, VFloat b => f64_cmp a b
  | VInt a, VFloat b => f64_cmp (f64_of_int a) b
  | VFloat a, VInt b => f64_cmp a (f64_of_int b)
  | VStr a, VStr b => Some (str_cmp a b)
  | _, _ => None
  end.
(** the operators < > <= >= that PartialOrd derives from partial_cmp; evaluator.rs:146 *)
Definition value_lt (l r : value) : bool := match value_cmp l r with Some Lt => true | _ => false end.
(** evaluator.rs:147 *)
Definition value_gt (l r : value) : bool := match value_cmp l r with Some Gt => true | _ => false end.
(** evaluator.rs:148 *)
Definition value_le (l r : value) : bool := match value_cmp l r with Some (Lt | Eq) => true | _ => false end.
(** evaluator.rs:149 *)
Definition value_ge (l r : value) : bool := match value_cmp l r with Some (Gt | Eq) => true | _ => false end.

(** #[derive(PartialEq)] value.rs:16; HashMap equality: same length and every
    entry of the left map present and equal in the right one *)
Fixpoint value_eqb (l r : value) : bool :=
  match l, r with
  | VNull, VNull => true
  | VInt a, VInt b => a =? b
  | VFloat a, VFloat b => f64_eqb a b
  | VBool a, VBool b => Bool.eqb a b
  | VStr a, VStr b => str_eqb a b
  | VArr a, VArr b =>
      (fix go (a b : list value) : bool :=
         match a, b with
         | [], [] => true
         | x :: a', y :: b' => value_eqb x y && go a' b'
         | _, _ => false
         end) a b
  | VMap a, VMap b =>
      Nat.eqb (length a) (length b) &&
      forallb (fun kv => match mget (fst kv) b with Some v => value_eqb (snd kv) v | None => false end) a
  | _, _ => false
  end.

(** Expr::eval, syntax.rs:34-49: the value of a literal document; [collect] into
    a HashMap inserts the pairs in order *)
Fixpoint expr_eval (h : host) (e : expr) : value :=
  match e with
  | EInt z => VInt z
  | EFloat f => VFloat f
  | EBool b => VBool b
  | EStr s => VStr s
  | EArr items => VArr (map (expr_eval h) items)
  | EMap pairs =>
      VMap (mextend [] (map (fun kv => (show_value h (expr_eval h (fst kv)), expr_eval h (snd kv))) pairs))
  | _ => VNull
  end.
