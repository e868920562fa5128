(** Suites whose files or definitions come in another order *)
From Verif Require Export SpecProcess SpecCombine.
From Coq Require Export Permutation.
Open Scope N_scope.

(** the same top-level expressions in the same order, and under every name the same request and the same test *)
Definition alike (src src' : source) : Prop :=
  s_exprs src' = s_exprs src /\ (forall n, mget n (s_requests src') = mget n (s_requests src)) /\ (forall n, mget n (s_tests src') = mget n (s_tests src)).

(** two files that define no name both, and of which one has definitions only *)
Definition independent (f g : str) : Prop := exists sf sg, parse f = Ok sf /\ parse g = Ok sg /\ (s_exprs sf = [] \/ s_exprs sg = []) /\
  (forall n, mget n (s_requests sf) = None \/ mget n (s_requests sg) = None) /\ (forall n, mget n (s_tests sf) = None \/ mget n (s_tests sg) = None).
(** independent neighbours change places, any number of times *)
Inductive moved : list str -> list str -> Prop :=
| mv_none l : moved l l
| mv_swap a f g b : independent f g -> moved (a ++ f :: g :: b) (a ++ g :: f :: b)
| mv_more l m n : moved l m -> moved m n -> moved l n.

(** what can be seen of a process: its output and requests in their order, the files, the interruption, and whether and how it ended *)
Definition looks_like (p p' : process) : Prop :=
  p_log p' = p_log p /\ p_disk p' = p_disk p /\ p_flag p' = p_flag p /\ forall b, p_main p = Gone b <-> p_main p' = Gone b.
