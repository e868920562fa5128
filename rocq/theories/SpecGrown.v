(** A suite to which something was added *)
From Verif Require Export SpecModes SpecReads SpecCombine.
Open Scope N_scope.

(** [grown src src' extra name body]: the test [name] is still there, [extra] was added to the end of the
    top-level expressions, and any number of tests and of requests were added; none of the requests has the name of
    a function called before, nor does [extra] set a variable that the test reads *)
Definition grown (src src' : source) (extra : list expr) (name : str) (body : list expr) : Prop :=
  s_exprs src' = s_exprs src ++ extra /\ mget name (s_tests src) = Some body /\ mget name (s_tests src') = Some body /\
  (forall e r, In e (s_exprs src ++ body) -> In r (called e) -> mget r (s_requests src') = mget r (s_requests src)) /\
  (forall e n, In e body -> reads (s_requests src) e n -> ~ In n (flat_map let_names extra)).
