(** lib/src/syntax.rs *)
From Verif Require Export Display Token.
Open Scope N_scope.

(** What the Rust standard library decides and the model does not compute:
    which characters are shown as they are in quoted text, the iteration order of a
    hash map (as an order on its keys) and whether the build has integer
    overflow checks.  Theorems quantify over it.  One order
    for all maps is a simplification: in Rust maps with the same keys may differ in it;
    used at value.rs:32-36, evaluator.rs:83 *)
Record host := Host {
  h_plain : char -> bool;       (* Debug for str: not escaped *)
  h_order : list str -> list str; (* iteration order of the keys of a map *)
  h_checks : bool               (* true: overflow panics (debug); false: wraps (release) *)
}.

(** syntax.rs:9-31.  [Token] is kept in unary and binary nodes as in the code. *)
Inductive expr : Type :=
| EInt (z : Z)
| EFloat (f : f64)
| EBool (b : bool)
| EStr (s : str)
| EArr (items : list expr)
| EMap (pairs : list (expr * expr))
| EIndex (e i : expr)
| EField (e : expr) (field : str)
| EIdent (name : str)
| ELet (name : str) (e : expr)
| EUn (t : token) (e : expr)
| EBin (t : token) (l r : expr)
| EParen (e : expr)
| EIf (c : expr) (cons alt : list expr)
| ECall (name : str) (args : list expr).

(** Vec<String>::join as used by the macro syntax.rs:52-67 *)
Fixpoint join (sep : str) (l : list str) : str :=
  match l with
  | [] => []
  | [x] => x
  | x :: l' => x ++ sep ++ join sep l'
  end.

(** used at value.rs:33, syntax.rs:74 *)
Definition show_bool (b : bool) : str := if b then lit "true" else lit "false".

(** Display for Expr, syntax.rs:69-99 *)
Fixpoint show_expr (e : expr) : str :=
  match e with
  | EInt z => show_Z z
  | EFloat f => show_f64 f
  | EBool b => show_bool b
  | EStr s => [34] ++ s ++ [34]
  | EIdent n => n
  | EArr items => lit "[" ++ join (lit ", ") (map (show_expr) items) ++ lit "]"
  | EMap pairs =>
      lit "{" ++ join (lit ", ") (map (fun kv => show_expr (fst kv) ++ lit ": " ++ show_expr (snd kv)) pairs) ++ lit "}"
  | EIndex l i => show_expr l ++ lit "[" ++ show_expr i ++ lit "]"
  | EField l f => show_expr l ++ lit "." ++ f
  | ELet n v => lit "let " ++ n ++ lit " = " ++ show_expr v
  | EUn t r => tlit t ++ show_expr r
  | EBin t l r => show_expr l ++ lit " " ++ tlit t ++ lit " " ++ show_expr r
  | EParen v => lit "(" ++ show_expr v ++ lit ")"
  | EIf c cs alt =>
      lit "if (" ++ show_expr c ++ lit ") { " ++ join (lit ";") (map (show_expr) cs)
      ++ (match alt with [] => [] | _ => lit "} else { " ++ join (lit ";") (map (show_expr) alt) end)
      ++ lit " }"
  | ECall f args => f ++ lit "(" ++ join (lit ", ") (map (show_expr) args) ++ lit ")"
  end.

(** Debug for Expr, syntax.rs:101-113 *)
Fixpoint debug_expr (e : expr) : str :=
  match e with
  | EIndex l i => lit "(" ++ debug_expr l ++ lit "[" ++ debug_expr i ++ lit "])"
  | EUn t r => lit "(" ++ tlit t ++ debug_expr r ++ lit ")"
  | EBin t l r => lit "(" ++ debug_expr l ++ lit " " ++ tlit t ++ lit " " ++ debug_expr r ++ lit ")"
  | ECall f args => f ++ lit "(" ++ join (lit ", ") (map (debug_expr) args) ++ lit ")"
  | _ => show_expr e
  end.
