(** Changing the order of statements, dropping unused ones, and writing an
    expression in place of a variable *)
From Verif Require Export SpecEval SpecReads.

(** [b] neither reads nor sets a variable that [a] sets *)
Definition keeps_off (reqs : amap (str * list expr)) (a b : expr) : Prop :=
  forall n, In n (let_names a) -> ~ reads reqs b n /\ ~ In n (let_names b).
Definition independent (reqs : amap (str * list expr)) (a b : expr) : Prop :=
  keeps_off reqs a b /\ keeps_off reqs b a.
(** Two states that differ at most in the order in which variables are kept *)
Definition same_state (s s' : st) : Prop :=
  (forall n, mget n (c_vars (s_ctx s')) = mget n (c_vars (s_ctx s))) /\
  c_reqs (s_ctx s') = c_reqs (s_ctx s) /\ c_recs (s_ctx s') = c_recs (s_ctx s) /\ s_trace s' = s_trace s.
(** Two states that differ at most in the variables [ns] *)
Definition same_but (ns : list str) (s s' : st) : Prop :=
  (forall n, ~ In n ns -> mget n (c_vars (s_ctx s')) = mget n (c_vars (s_ctx s))) /\
  c_reqs (s_ctx s') = c_reqs (s_ctx s) /\ c_recs (s_ctx s') = c_recs (s_ctx s) /\ s_trace s' = s_trace s.

(** An expression with (e) written wherever it reads the variable [x] *)
Fixpoint inline (x : str) (e a : expr) : expr :=
  match a with
  | EInt z => EInt z
  | EFloat f => EFloat f
  | EBool b => EBool b
  | EStr s => EStr s
  | EArr es => EArr (map (inline x e) es)
  | EMap ps => EMap (map (fun kv => (inline x e (fst kv), inline x e (snd kv))) ps)
  | EIndex a i => EIndex (inline x e a) (inline x e i)
  | EField a f => EField (inline x e a) f
  | EIdent n => if str_eqb n x then EParen e else EIdent n
  | ELet n a => ELet n (inline x e a)
  | EUn t a => EUn t (inline x e a)
  | EBin t a b => EBin t (inline x e a) (inline x e b)
  | EParen a => EParen (inline x e a)
  | EIf c a b => EIf (inline x e c) (map (inline x e) a) (map (inline x e) b)
  | ECall n es => ECall n (map (inline x e) es)
  end.
(** The one error that quotes expressions quotes the new ones *)
Definition inline_error (x : str) (e : expr) (er : everr) : everr :=
  match er with EBinaryUnsupported t a b => EBinaryUnsupported t (inline x e a) (inline x e b) | er => er end.
Definition inline_result {A} (x : str) (e : expr) (o : out everr A) : out everr A :=
  match o with Err er => Err (inline_error x e er) | o => o end.
(** No request called in [a] has a placeholder for [x] *)
Definition not_in_templates (reqs : amap (str * list expr)) (x : str) (a : expr) : Prop :=
  forall r t asserts ps, In r (called a) -> mget r reqs = Some (t, asserts) -> scan t ps -> ~ In x (holes ps).
