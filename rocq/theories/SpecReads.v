(** Which variables and definitions an expression can depend on *)
From Verif Require Export SpecEval.

(** The variables mentioned in an expression *)
Fixpoint idents (e : expr) : list str :=
  match e with
  | EInt _ | EFloat _ | EBool _ | EStr _ => []
  | EIdent n => [n]
  | EArr es | ECall _ es => flat_map idents es
  | EMap ps => flat_map (fun kv => idents (fst kv) ++ idents (snd kv)) ps
  | EIndex a b | EBin _ a b => idents a ++ idents b
  | EField a _ | EUn _ a | EParen a | ELet _ a => idents a
  | EIf c a b => idents c ++ flat_map idents a ++ flat_map idents b
  end.
(** The functions called in an expression *)
Fixpoint called (e : expr) : list str :=
  match e with
  | EInt _ | EFloat _ | EBool _ | EStr _ | EIdent _ => []
  | EArr es => flat_map called es
  | ECall n es => n :: flat_map called es
  | EMap ps => flat_map (fun kv => called (fst kv) ++ called (snd kv)) ps
  | EIndex a b | EBin _ a b => called a ++ called b
  | EField a _ | EUn _ a | EParen a | ELet _ a => called a
  | EIf c a b => called c ++ flat_map called a ++ flat_map called b
  end.
(** The variables an expression can read: those it mentions and the placeholders
    of the requests it calls *)
Definition reads (reqs : amap (str * list expr)) (e : expr) (n : str) : Prop :=
  In n (idents e) \/
  exists r template asserts ps, In r (called e) /\ mget r reqs = Some (template, asserts) /\ scan template ps /\ In n (holes ps).

(** Two states in which [e] finds the same things *)
Definition look_alike (e : expr) (s1 s2 : st) : Prop :=
  s_trace s1 = s_trace s2 /\
  (forall r, In r (called e) -> mget r (c_reqs (s_ctx s1)) = mget r (c_reqs (s_ctx s2))) /\
  (forall n, reads (c_reqs (s_ctx s1)) e n -> mget n (c_vars (s_ctx s1)) = mget n (c_vars (s_ctx s2))).
(** Each variable was left alone on both sides, or is now the same on both sides *)
Definition moved_alike {V} (a1 b1 a2 b2 : amap V) : Prop :=
  forall n, mget n b1 = mget n a1 /\ mget n b2 = mget n a2 \/ mget n b1 = mget n b2.
