(** C138 *)
From Verif Require Import EvalExamples PrintsExamples WholeExamples TallyExamples ShuffleProofs ShuffleExamples CausalProofs CausalExamples SpecProcess SpecAside SpecShuffle SpecCausal ProcessExamples.
Open Scope N_scope.

(** C138.  Nothing depends on answers that have not been given *)

Theorem C138_program : forall w w' T es s, same_machine w w' -> same_answers_before w w' T ->
  starts_with T (s_trace (snd (eval_block w es s))) -> starts_with T (s_trace (snd (eval_block w' es s))).
Proof. exact causal_program. Qed.
Print Assumptions C138_program.
Theorem C138_answered : forall w w' es s, same_machine w w' -> same_answers w w' (s_trace (snd (eval_block w es s))) -> eval_block w' es s = eval_block w es s.
Proof. exact answered_program. Qed.
Print Assumptions C138_answered.
Theorem C138_run : forall g g' iter w root name threads duration number record record' pod pod' d d' p, (forall path, g_creates g' path = true) -> numbered_apart iter w root name ->
  goes g (launch iter w root name threads duration number record pod d) p ->
  (forall id, same_machine (g_world g id) (g_world g' id) /\ same_answers_before (g_world g id) (g_world g' id) (events_of (Tester id) (p_log p))) ->
  exists p', goes g' (launch iter w root name threads duration number record' pod' d') p' /\ tests_part (p_log p') = tests_part (p_log p) /\ p_flag p' = p_flag p.
Proof. exact causal_run. Qed.
Print Assumptions C138_run.
Theorem C138_run_answered : forall g g' iter w root name threads duration number record record' pod pod' d d' p b, (forall path, g_creates g path = true) -> (forall path, g_creates g' path = true) -> numbered_apart iter w root name ->
  goes g (launch iter w root name threads duration number record pod d) p -> p_main p = Gone b ->
  (forall id, same_machine (g_world g id) (g_world g' id) /\ same_answers (g_world g id) (g_world g' id) (events_of (Tester id) (p_log p))) ->
  exists p', goes g' (launch iter w root name threads duration number record' pod' d') p' /\ tests_part (p_log p') = tests_part (p_log p) /\ p_flag p' = p_flag p /\ p_main p' = Gone b.
Proof. exact answered_run. Qed.
Print Assumptions C138_run_answered.
Example C138_example : (forall path, g_creates steady_setting path = true) /\ numbered_apart (@rev _) slow (at_file whole_text) (Some (lit "one")) /\ goes slow_setting slow_launch slow_begun /\
  (exists a b, events_of (Tester 0) (p_log slow_begun) = [Sent a; Sent b]) /\
  (forall id, same_machine (g_world slow_setting id) (g_world steady_setting id) /\ same_answers_before (g_world slow_setting id) (g_world steady_setting id) (events_of (Tester id) (p_log slow_begun))) /\
  events_of (Tester 0) (p_log steady_finish) <> events_of (Tester 0) (p_log slow_finish).
Proof. exact causal_example. Qed.

Example C138_answered_example : goes slow_setting slow_launch slow_finish /\ p_main slow_finish = Gone true /\
  (forall id, same_machine (g_world slow_setting id) (g_world long_setting id) /\ same_answers (g_world slow_setting id) (g_world long_setting id) (events_of (Tester id) (p_log slow_finish))) /\
  exists tr m, e_net (g_world long_setting 0) tr m <> e_net (g_world slow_setting 0) tr m.
Proof. exact answered_example. Qed.

