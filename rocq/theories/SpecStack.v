(** What makes calls nest: brackets, lets and operators in front of operands *)
From Verif Require Export Deep.
Open Scope nat_scope.

(** The greatest number of brackets open at once *)
Fixpoint rise (ts : list token) : nat :=
  match ts with
  | [] => 0
  | t :: r => match tkind t with
              | KLp | KLb | KLs => S (rise r)
              | KRp | KRb | KRs => pred (rise r)
              | _ => rise r
              end
  end.
(** The number of [let]s *)
Fixpoint lets (ts : list token) : nat :=
  match ts with
  | [] => 0
  | t :: r => match tkind t with KLet => S (lets r) | _ => lets r end
  end.
(** The number of [!] and [-] in front *)
Fixpoint run (ts : list token) : nat :=
  match ts with
  | [] => 0
  | t :: r => match tkind t with KNot | KSub => S (run r) | _ => 0 end
  end.
(** The longest sequence of them *)
Fixpoint runs (ts : list token) : nat :=
  match ts with
  | [] => 0
  | t :: r => Nat.max (run (t :: r)) (runs r)
  end.

(** How deep expressions are nested in an expression *)
Fixpoint height (e : expr) : nat :=
  S (match e with
     | EInt _ | EFloat _ | EBool _ | EStr _ | EIdent _ => 0
     | EArr es | ECall _ es => list_max (map height es)
     | EMap ps => list_max (map (fun kv => Nat.max (height (fst kv)) (height (snd kv))) ps)
     | EIndex a b | EBin _ a b => Nat.max (height a) (height b)
     | EField a _ | ELet _ a | EUn _ a | EParen a => height a
     | EIf c a b => Nat.max (height c) (Nat.max (list_max (map height a)) (list_max (map height b)))
     end).
Definition heights (es : list expr) : nat := list_max (map height es).

(** Every part of the expression is evaluated whatever the values are *)
Definition eager1 (e : expr) : Prop :=
  match e with
  | EIf _ _ _ => False
  | EBin t _ _ => tkind t <> KLo /\ tkind t <> KLa
  | _ => True
  end.

(** Every body a server answers with has at most [B] characters *)
Definition answers (w : env) (B : nat) : Prop :=
  forall tr m rq rs t er, client_send (e_prepare w) (e_net w tr m) m = Ok (rq, rs, t, er) -> length (rs_body rs) <= B.
