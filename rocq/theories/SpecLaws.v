(** Laws of the operators, stated for expressions over three variables *)
From Verif Require Export SpecValue.
Open Scope Z_scope.

Definition A : expr := EIdent (lit "a").
Definition B : expr := EIdent (lit "b").
Definition C : expr := EIdent (lit "c").
Definition op (k : kind) (l r : expr) : expr := EBin (Tok k []) l r.
Definition un (k : kind) (e : expr) : expr := EUn (Tok k []) e.
(** What [e] gives when the variables a, b and c hold [x], [y] and [z] *)
Definition calc (w : env) (e : expr) (x y z : value) : res :=
  fst (eval_expr w e (St (Ctx [(lit "a", x); (lit "b", y); (lit "c", z)] [] []) [])).
(** The same in builds that do not check for overflow; in builds that do, one
    side may abort, but if both give a value it is the same *)
Definition interchangeable (w : env) (e e' : expr) (x y z : value) : Prop :=
  (h_checks (e_host w) = false -> calc w e x y z = calc w e' x y z) /\
  (forall v v', calc w e x y z = Ok v -> calc w e' x y z = Ok v' -> v = v').
