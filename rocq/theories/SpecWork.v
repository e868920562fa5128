(** How large expressions are *)
From Verif Require Export Work.
Open Scope nat_scope.

(** The number of expressions an expression consists of, itself included *)
Fixpoint size (e : expr) : nat :=
  S (match e with
     | EInt _ | EFloat _ | EBool _ | EStr _ | EIdent _ => 0
     | EArr es | ECall _ es => list_sum (map size es)
     | EMap ps => list_sum (map (fun kv => size (fst kv) + size (snd kv)) ps)
     | EIndex a b | EBin _ a b => size a + size b
     | EField a _ | ELet _ a | EUn _ a | EParen a => size a
     | EIf c a b => size c + (list_sum (map size a) + list_sum (map size b))
     end).
Definition sizes (es : list expr) : nat := list_sum (map size es).
