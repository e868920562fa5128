(** Induction on expression trees *)
From Verif Require Import Syntax.

Section Ind.
  Variable P : expr -> Prop.
  Hypothesis H_int : forall z, P (EInt z).
  Hypothesis H_float : forall f, P (EFloat f).
  Hypothesis H_bool : forall b, P (EBool b).
  Hypothesis H_str : forall s, P (EStr s).
  Hypothesis H_arr : forall es, Forall P es -> P (EArr es).
  Hypothesis H_map : forall ps, Forall (fun kv => P (fst kv) /\ P (snd kv)) ps -> P (EMap ps).
  Hypothesis H_index : forall e i, P e -> P i -> P (EIndex e i).
  Hypothesis H_field : forall e f, P e -> P (EField e f).
  Hypothesis H_ident : forall n, P (EIdent n).
  Hypothesis H_let : forall n e, P e -> P (ELet n e).
  Hypothesis H_un : forall t e, P e -> P (EUn t e).
  Hypothesis H_bin : forall t l r, P l -> P r -> P (EBin t l r).
  Hypothesis H_paren : forall e, P e -> P (EParen e).
  Hypothesis H_if : forall c a b, P c -> Forall P a -> Forall P b -> P (EIf c a b).
  Hypothesis H_call : forall n es, Forall P es -> P (ECall n es).

  Fixpoint expr_ind2 (e : expr) : P e :=
    let fix all (l : list expr) : Forall P l :=
      match l with [] => Forall_nil _ | e :: l => Forall_cons _ (expr_ind2 e) (all l) end in
    match e with
    | EInt z => H_int z
    | EFloat f => H_float f
    | EBool b => H_bool b
    | EStr s => H_str s
    | EArr es => H_arr es (all es)
    | EMap ps => H_map ps
        ((fix all2 (l : list (expr * expr)) : Forall (fun kv => P (fst kv) /\ P (snd kv)) l :=
           match l with
           | [] => Forall_nil _
           | kv :: l => Forall_cons _ (conj (expr_ind2 (fst kv)) (expr_ind2 (snd kv))) (all2 l)
           end) ps)
    | EIndex e i => H_index e i (expr_ind2 e) (expr_ind2 i)
    | EField e f => H_field e f (expr_ind2 e)
    | EIdent n => H_ident n
    | ELet n e => H_let n e (expr_ind2 e)
    | EUn t e => H_un t e (expr_ind2 e)
    | EBin t l r => H_bin t l r (expr_ind2 l) (expr_ind2 r)
    | EParen e => H_paren e (expr_ind2 e)
    | EIf c a b => H_if c a b (expr_ind2 c) (all a) (all b)
    | ECall n es => H_call n es (all es)
    end.
End Ind.
