(** What evaluation means, independently of how evaluator.rs computes it *)
From Verif Require Export Evaluator SpecTemplate SpecValue.
Open Scope nat_scope.

(** The two values that count as false *)
Definition counts_false (v : value) : Prop := v = VBool false \/ v = VNull.

(** Names bound by a [let] anywhere inside an expression *)
Fixpoint let_names (e : expr) : list str :=
  match e with
  | EInt _ | EFloat _ | EBool _ | EStr _ | EIdent _ => []
  | EArr es | ECall _ es => flat_map let_names es
  | EMap ps => flat_map (fun kv => let_names (fst kv) ++ let_names (snd kv)) ps
  | EIndex a b | EBin _ a b => let_names a ++ let_names b
  | EField a _ | EUn _ a | EParen a => let_names a
  | ELet n a => n :: let_names a
  | EIf c a b => let_names c ++ flat_map let_names a ++ flat_map let_names b
  end.

(** Number of call expressions *)
Fixpoint call_count (e : expr) : nat :=
  match e with
  | EInt _ | EFloat _ | EBool _ | EStr _ | EIdent _ => 0
  | EArr es => list_sum (map call_count es)
  | ECall _ es => S (list_sum (map call_count es))
  | EMap ps => list_sum (map (fun kv => call_count (fst kv) + call_count (snd kv)) ps)
  | EIndex a b | EBin _ a b => call_count a + call_count b
  | EField a _ | EUn _ a | EParen a | ELet _ a => call_count a
  | EIf c a b => call_count c + list_sum (map call_count a) + list_sum (map call_count b)
  end.

(** Number of requests in a trace, and the text printed in it *)
Definition sent (tr : list event) : nat := length (filter (fun ev => match ev with Sent _ => true | Printed _ => false end) tr).
Definition printed (tr : list event) : str := flat_map (fun ev => match ev with Printed t => t | Sent _ => [] end) tr.

(** A result or an error was returned (no abort, no endless loop) *)
Definition returns {A} (o : out everr A) : Prop := match o with Ok _ | Err _ => True | _ => False end.
Definition is_ok {A} (o : out everr A) : Prop := exists a, o = Ok a.
(** The outcome of an expression as the outcome of an expression around it that stopped there *)
Definition stopped {A B} (o : out everr A) : out everr B :=
  match o with Ok _ => Panic | Err e => Err e | Panic => Panic | Diverge => Diverge end.

(** [in_order w es s vs s']: the expressions evaluate one after the other to [vs] *)
Inductive in_order (w : env) : list expr -> st -> list value -> st -> Prop :=
| io_nil s : in_order w [] s [] s
| io_cons e es s v s1 vs s2 : eval_expr w e s = (Ok v, s1) -> in_order w es s1 vs s2 -> in_order w (e :: es) s (v :: vs) s2.
(** [breaks w es s o s']: evaluating them one after the other, one of them does not succeed *)
Inductive breaks (w : env) : list expr -> st -> res -> st -> Prop :=
| br_here e es s o s1 : eval_expr w e s = (o, s1) -> ~ is_ok o -> breaks w (e :: es) s o s1
| br_later e es s v s1 o s2 : eval_expr w e s = (Ok v, s1) -> breaks w es s1 o s2 -> breaks w (e :: es) s o s2.

(** The displayed text of a variable, "null" if unbound *)
Definition shown (w : env) (c : ctx) (n : str) : str :=
  match mget n (c_vars c) with Some v => show_value (e_host w) v | None => lit "null" end.

(** The message of a request in a context *)
Definition message_of (w : env) (c : ctx) (template msg : str) : Prop :=
  exists ps, scan template ps /\ msg = fill ps (map (shown w c) (holes ps)).

Definition comparison_kinds : list kind := [KLt; KGt; KLe; KGe; KEq; KNe].

Lemma kind_dec (a b : kind) : {a = b} + {a <> b}.
Proof. decide equality. Defined.
(** The expression is a comparison *)
Definition comparison_expr (e : expr) : bool :=
  match e with EBin t _ _ => if in_dec kind_dec (tkind t) comparison_kinds then true else false | _ => false end.

(** The value of an operand of an assertion: null if it cannot be computed *)
Definition operand (w : env) (e : expr) (s : st) (v : value) (s' : st) : Prop :=
  eval_expr w e s = (Ok v, s') \/ (v = VNull /\ exists err, eval_expr w e s = (Err err, s')).

(** [asserted w es s as_ s']: the declared assertions [es], evaluated one after
    the other starting in [s], report [as_] *)
Inductive asserted (w : env) : list expr -> st -> list assertion -> st -> Prop :=
| at_nil s : asserted w [] s [] s
| at_other e es s as_ s' : (forall t l r, e <> EBin t l r) -> asserted w es s as_ s' -> asserted w (e :: es) s as_ s'
| at_operator t l r es s lv s1 rv s2 as_ s3 : ~ In (tkind t) comparison_kinds ->
    operand w l s lv s1 -> operand w r s1 rv s2 -> asserted w es s2 as_ s3 -> asserted w (EBin t l r :: es) s as_ s3
| at_comparison t l r es s lv s1 rv s2 b as_ s3 : In (tkind t) comparison_kinds ->
    operand w l s lv s1 -> operand w r s1 rv s2 -> binop w (tkind t) lv rv = Ok (VBool b) ->
    asserted w es s2 as_ s3 ->
    asserted w (EBin t l r :: es) s
      (Assert (show_expr l ++ lit " " ++ tlit t ++ lit " " ++ show_expr r)
              (show_value (e_host w) lv) (tlit t) (show_value (e_host w) rv) b :: as_) s3.

(** [last_set k kvs v]: the last pair of [kvs] with key [k] has value [v] *)
Definition last_set {V} (k : str) (kvs : list (str * V)) (v : V) : Prop :=
  exists a b, kvs = a ++ (k, v) :: b /\ ~ In k (map fst b).

(** Values in a row read as key, value, key, value, ... *)
Fixpoint pair_up (w : env) (vs : list value) : list (str * value) :=
  match vs with k :: v :: vs' => (show_value (e_host w) k, v) :: pair_up w vs' | _ => [] end.
(** The keys and values of a map literal in the order they are written *)
Definition flatten (ps : list (expr * expr)) : list expr := flat_map (fun kv => [fst kv; snd kv]) ps.

(** The operators that evaluate both operands *)
Definition strict_kinds : list kind :=
  [KAdd; KSub; KMul; KDiv; KRem; KBx; KBo; KBa; KSl; KSr; KLt; KGt; KLe; KGe; KEq; KNe].

(** The name is not defined as a request *)
Definition unshadowed (n : str) (s : st) : Prop := mget n (c_reqs (s_ctx s)) = None.

Definition native_names : list str := [lit "println"; lit "print"; lit "format"; lit "length"; lit "append"].

(** [formats w vs o]: what formatting the values [vs] gives *)
Inductive formats (w : env) : list value -> res -> Prop :=
| fm_ok f ps vs : scan f ps -> length vs = length (holes ps) ->
    formats w (VStr f :: vs) (Ok (VStr (fill ps (map (show_value (e_host w)) vs))))
| fm_count f ps vs e : scan f ps -> length vs <> length (holes ps) ->
    everr_text (e_host w) e = lit "wrong number of arguments. got=" ++ show_nat (length vs) ++ lit ", want=" ++ show_nat (length (holes ps)) ->
    formats w (VStr f :: vs) (Err e)
| fm_type v vs e : (forall f, v <> VStr f) -> everr_text (e_host w) e = lit "first parameter must be a string" -> formats w (v :: vs) (Err e)
| fm_none e : everr_text (e_host w) e = lit "function length need a parameter" -> formats w [] (Err e).
