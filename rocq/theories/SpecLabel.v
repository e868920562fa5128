(** Other names for tests *)
From Verif Require Export SpecAdded.
Open Scope N_scope.

Definition relabel (f : str -> str) (ts : list (str * list expr)) : list (str * list expr) := map (fun t => (f (fst t), snd t)) ts.
(** the same source with other names for its tests, all still different *)
Definition relabelled (f : str -> str) (src src' : source) : Prop :=
  s_exprs src' = s_exprs src /\ s_requests src' = s_requests src /\ s_tests src' = relabel f (s_tests src) /\
  forall a b, In a (map fst (s_tests src)) -> In b (map fst (s_tests src)) -> f a = f b -> a = b.
