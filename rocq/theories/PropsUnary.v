(** C124 *)
From Verif Require Import EvalExamples UnaryProofs SpecValue SpecSyntax SpecEval SpecFloat64.
From Coq Require Import QArith.
Open Scope Z_scope.

(** C124.  The unary operators, value by value *)

Theorem C124_not : forall w e s v s1, eval_expr w e s = (Ok v, s1) ->
  exists x, eval_expr w (EUn (op KNot "!") e) s = (Ok x, s1) /\
  ((v = VNull \/ v = VBool false) /\ x = VBool true \/ (exists z, v = VInt z /\ x = VInt (- z - 1)) \/
   v <> VNull /\ v <> VBool false /\ (forall z, v <> VInt z) /\ x = VBool false).
Proof. exact not_of. Qed.
Print Assumptions C124_not.
Theorem C124_minus : forall w e s v s1, eval_expr w e s = (Ok v, s1) ->
  (forall z, v = VInt z -> eval_expr w (EUn (op KSub "-") e) s = (unop w KSub (VInt z), s1)) /\
  (forall f, v = VFloat f -> exists g, eval_expr w (EUn (op KSub "-") e) s = (Ok (VFloat g), s1) /\
     (f = S754_nan /\ g = S754_nan \/ f <> S754_nan /\ g <> S754_nan /\ sign_of g = negb (sign_of f)) /\
     (forall x, value_of f = Some x -> exists y, value_of g = Some y /\ (y == - x)%Q) /\ (value_of f = None -> value_of g = None) /\ (binary64 f -> binary64 g)) /\
  ((forall z, v <> VInt z) -> (forall f, v <> VFloat f) ->
     exists er, eval_expr w (EUn (op KSub "-") e) s = (Err er, s1) /\ everr_text (e_host w) er = lit "unknown operator: -" ++ debug_value (e_host w) v).
Proof. exact minus_of. Qed.
Print Assumptions C124_minus.
Example C124_example : forall w, fst (eval_expr w (EUn (op KNot "!") (EInt 5)) (St ctx_new [])) = Ok (VInt (-6)) /\
  fst (eval_expr w (EUn (op KNot "!") (EStr [])) (St ctx_new [])) = Ok (VBool false) /\
  fst (eval_expr w (EUn (op KSub "-") (EFloat (S754_zero false))) (St ctx_new [])) = Ok (VFloat (S754_zero true)) /\
  exists er, fst (eval_expr w (EUn (op KSub "-") (EBool true)) (St ctx_new [])) = Err er /\ everr_text (e_host w) er = lit "unknown operator: -Boolean(true)".
Proof. exact unary_example. Qed.

