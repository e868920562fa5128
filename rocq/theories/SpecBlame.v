(** Which part of a program a runtime error comes from, and what the message says *)
From Verif Require Export SpecEval.
Open Scope nat_scope.

(** The parts of an expression that are evaluated first, one after the other *)
Definition parts (e : expr) : list expr :=
  match e with
  | EInt _ | EFloat _ | EBool _ | EStr _ | EIdent _ => []
  | EArr es | ECall _ es => es
  | EMap ps => flatten ps
  | EIndex a b => [a; b]
  | EField a _ | EUn _ a | EParen a | ELet _ a | EIf a _ _ => [a]
  | EBin t a b =>
      if in_dec kind_dec (tkind t) strict_kinds then [a; b]
      else if in_dec kind_dec (tkind t) [KLa; KLo] then [a] else []
  end.

Section Blame.
Variable w : env.
Notation h := (e_host w).

(** [comes_to e s e' s']: evaluating [e] in the state [s] comes to evaluating [e'] in [s'] *)
Inductive comes_to : expr -> st -> expr -> st -> Prop :=
| ct_self e s : comes_to e s e s
| ct_part e a x b s vs s1 e' s' : parts e = a ++ x :: b -> in_order w a s vs s1 -> comes_to x s1 e' s' -> comes_to e s e' s'
| ct_and t l r s v s1 e' s' : tkind t = KLa -> eval_expr w l s = (Ok v, s1) -> ~ counts_false v ->
    comes_to r s1 e' s' -> comes_to (EBin t l r) s e' s'
| ct_or t l r s v s1 e' s' : tkind t = KLo -> eval_expr w l s = (Ok v, s1) -> counts_false v ->
    comes_to r s1 e' s' -> comes_to (EBin t l r) s e' s'
| ct_then c y n a x b s v s1 vs s2 e' s' : eval_expr w c s = (Ok v, s1) -> ~ counts_false v -> y = a ++ x :: b ->
    in_order w a s1 vs s2 -> comes_to x s2 e' s' -> comes_to (EIf c y n) s e' s'
| ct_else c y n a x b s v s1 vs s2 e' s' : eval_expr w c s = (Ok v, s1) -> counts_false v -> n = a ++ x :: b ->
    in_order w a s1 vs s2 -> comes_to x s2 e' s' -> comes_to (EIf c y n) s e' s'.

(** [misused n vs m]: the function [n] does not work on the values [vs], as [m] says *)
Definition formatting : list str := [lit "println"; lit "print"; lit "format"].
Inductive misused : str -> list value -> str -> Prop :=
| mu_unknown n vs : ~ In n native_names -> misused n vs (lit "function " ++ n ++ lit " not found")
| mu_nothing n : In n (lit "append" :: formatting) -> misused n [] (lit "function length need a parameter")
| mu_string n v vs : In n formatting -> (forall f, v <> VStr f) -> misused n (v :: vs) (lit "first parameter must be a string")
| mu_holes n f ps vs : In n formatting -> scan f ps -> length vs <> length (holes ps) ->
    misused n (VStr f :: vs) (lit "wrong number of arguments. got=" ++ show_nat (length vs) ++ lit ", want=" ++ show_nat (length (holes ps)))
| mu_array v vs : (forall l, v <> VArr l) -> misused (lit "append") (v :: vs) (lit "first parameter must be a array")
| mu_one vs : length vs <> 1 -> misused (lit "length") vs (lit "wrong number of arguments. got=" ++ show_nat (length vs) ++ lit ", want=1")
| mu_length v : (forall t, v <> VStr t) -> (forall l, v <> VArr l) -> (forall m, v <> VMap m) ->
    misused (lit "length") [v] (lit "function length not supported type " ++ debug_value h v).

(** [fault e s m s']: the parts of [e] can be evaluated in [s], [s'] is the state
    then, but the operation of [e] is not possible, as [m] says *)
Inductive fault : expr -> st -> str -> st -> Prop :=
| fa_ident n s : mget n (c_vars (s_ctx s)) = None -> fault (EIdent n) s (lit "ident:" ++ n ++ lit " not found") s
| fa_index a i s v k s' : in_order w [a; i] s [v; k] s' -> (forall m, v <> VMap m) -> (forall l z, ~ (v = VArr l /\ k = VInt z)) ->
    fault (EIndex a i) s (lit "index operator not support: " ++ debug_value h v) s'
| fa_field a f s v s' : eval_expr w a s = (Ok v, s') -> (forall m, v <> VMap m) ->
    fault (EField a f) s (lit "field operator not support: " ++ debug_value h v) s'
| fa_unary t a s v s' : eval_expr w a s = (Ok v, s') -> tkind t <> KNot -> ~ (tkind t = KSub /\ is_number v) ->
    fault (EUn t a) s (lit "unknown operator: " ++ tlit t ++ debug_value h v) s'
| fa_arithmetic t l r s v1 v2 s' : in_order w [l; r] s [v1; v2] s' -> arithmetic (tkind t) ->
    ~ (is_number v1 /\ is_number v2) -> ~ (tkind t = KAdd /\ both_str v1 v2) ->
    fault (EBin t l r) s (lit "type mismatch: " ++ show_value h v1 ++ lit " " ++ op_text (tkind t) ++ lit " " ++ show_value h v2) s'
| fa_bits t l r s v1 v2 s' : in_order w [l; r] s [v1; v2] s' -> bit_operator (tkind t) -> ~ both_int v1 v2 ->
    fault (EBin t l r) s (lit "type mismatch: " ++ show_value h v1 ++ lit " " ++ op_text (tkind t) ++ lit " " ++ show_value h v2) s'
| fa_operator t l r s : ~ In (tkind t) (KLa :: KLo :: strict_kinds) ->
    fault (EBin t l r) s (lit "not support operator: " ++ show_expr l ++ lit " " ++ tlit t ++ lit " " ++ show_expr r) s
| fa_call n args s vs s' m : in_order w args s vs s' -> unshadowed n s' -> misused n vs m -> fault (ECall n args) s m s'.
End Blame.
