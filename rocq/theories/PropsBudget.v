(** C140 *)
From Verif Require Import EvalExamples PrintsExamples WholeExamples TallyExamples BudgetProofs BudgetExamples SpecProcess SpecBudget ProcessExamples.
Open Scope N_scope.

(** C140.  No run makes more requests than its arguments and the suite allow *)

Theorem C140_named : forall iter w root name threads duration number record pod d g src s1 body p, loads w root src s1 -> mget name (s_tests src) = Some body -> threads <> 0 ->
  goes g (launch iter w root (Some name) threads duration number record pod d) p ->
  requests_by Main (p_log p) <= calls (s_exprs src) /\ (forall id, requests_by (Tester id) (p_log p) <= share duration number threads * calls body) /\
  requests (p_log p) <= calls (s_exprs src) + rounds duration number * calls body.
Proof. exact budget_named. Qed.
Print Assumptions C140_named.
Theorem C140_all : forall iter w root threads duration number record pod d g src s1 p, loads w root src s1 -> N.of_nat (length (iter (s_tests src))) <= 2 ^ 32 ->
  goes g (launch iter w root None threads duration number record pod d) p ->
  requests_by Main (p_log p) <= calls (s_exprs src) /\
  (forall id name body, nth_error (iter (s_tests src)) (N.to_nat id) = Some (name, body) -> requests_by (Tester id) (p_log p) <= calls body) /\
  requests (p_log p) <= calls (s_exprs src) + calls (flat_map snd (iter (s_tests src))).
Proof. exact budget_all. Qed.
Print Assumptions C140_all.
Theorem C140_stopped : forall iter w root name threads duration number record pod d g src s1 body p q, loads w root src s1 -> mget name (s_tests src) = Some body -> threads <> 0 ->
  goes g (launch iter w root (Some name) threads duration number record pod d) p -> p_flag p = false -> goes g p q ->
  (forall id, requests_by (Tester id) (p_log q) <= requests_by (Tester id) (p_log p) + calls body) /\ requests (p_log q) <= requests (p_log p) + threads * calls body.
Proof. exact budget_stopped. Qed.
Print Assumptions C140_stopped.
Example C140_example : exists src s1 body, loads slow (at_file whole_text) src s1 /\ mget (lit "one") (s_tests src) = Some body /\ calls (s_exprs src) = 0 /\ calls body = 3 /\
  goes slow_setting slow_launch slow_finish /\ share None 4 2 = 2 /\ requests_by (Tester 0) (p_log slow_finish) = 6 /\ requests_by (Tester 1) (p_log slow_finish) = 6 /\ requests (p_log slow_finish) = rounds None 4 * calls body /\
  N.of_nat (length (rev (s_tests src))) <= 2 ^ 32 /\ goes slow_setting everything_launch everything_finish /\ calls (flat_map snd (rev (s_tests src))) = 4 /\ requests (p_log everything_finish) = 4.
Proof. exact budget_example. Qed.

Example C140_stopped_example : goes slow_setting slow_launch begun_stopped /\ p_flag begun_stopped = false /\ goes slow_setting begun_stopped begun_finish /\ p_main begun_finish = Gone true /\
  requests (p_log begun_stopped) = 0 /\ requests_by (Tester 0) (p_log begun_finish) = 3 /\ requests (p_log begun_finish) = 6.
Proof. exact stopped_example. Qed.

