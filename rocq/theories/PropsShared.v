(** C139 *)
From Verif Require Import EvalExamples PrintsExamples WholeExamples TallyExamples ShuffleProofs ShuffleExamples SharedProofs ServedProofs SharedExamples BudgetExamples ServedExamples SpecProcess SpecAside SpecShuffle SpecCausal SpecShared SpecBudget SpecServed ProcessExamples.
Open Scope N_scope.

(** C139.  Threads meet through the server only *)

Theorem C139_continues : forall v g iter w root name threads duration number record pod d p q, (forall path, g_creates g path = true) -> numbered_apart iter w root name ->
  goes g (launch iter w root name threads duration number record pod d) p -> answered_by v g (p_log p) -> process_step g p q ->
  exists g' q', other_networks g g' /\ goes g' (launch iter w root name threads duration number record pod d) q' /\ tests_part (p_log q') = tests_part (p_log q) /\ p_flag q' = p_flag q /\ answered_by v g' (p_log q').
Proof. exact shared_continues. Qed.
Print Assumptions C139_continues.
Theorem C139_determined : forall v g g' iter w root name threads duration number record record' pod pod' d d' p p', numbered_apart iter w root name -> (forall id, same_machine (g_world g id) (g_world g' id)) ->
  goes g (launch iter w root name threads duration number record pod d) p -> goes g' (launch iter w root name threads duration number record' pod' d') p' ->
  answered_by v g (p_log p) -> answered_by v g' (p_log p') ->
  starts_with (map fst (tests_part (p_log p))) (map fst (tests_part (p_log p'))) -> starts_with (tests_part (p_log p)) (tests_part (p_log p')).
Proof. exact shared_determined. Qed.
Print Assumptions C139_determined.
Theorem C139_named_ends : forall v g iter w root name threads duration number record pod d p src s1 body, loads w root src s1 -> mget name (s_tests src) = Some body -> threads <> 0 ->
  (forall path, g_creates g path = true) -> (forall id, readable_bodies (g_world g id)) -> readable_server v ->
  goes g (launch iter w root (Some name) threads duration number record pod d) p -> answered_by v g (p_log p) ->
  exists g' q, other_networks g g' /\ goes g' (launch iter w root (Some name) threads duration number record pod d) q /\ p_main q = Gone true /\ p_flag q = p_flag p /\
    starts_with (tests_part (p_log p)) (tests_part (p_log q)) /\ answered_by v g' (p_log q).
Proof. exact served_named. Qed.
Print Assumptions C139_named_ends.
Theorem C139_all_ends : forall v g iter w root threads duration number record pod d p src s1, loads w root src s1 -> N.of_nat (length (iter (s_tests src))) <= 2 ^ 32 ->
  (forall path, g_creates g path = true) -> (forall id, readable_bodies (g_world g id)) -> readable_server v ->
  goes g (launch iter w root None threads duration number record pod d) p -> answered_by v g (p_log p) ->
  exists g' q, other_networks g g' /\ goes g' (launch iter w root None threads duration number record pod d) q /\ p_main q = Gone true /\ p_flag q = p_flag p /\
    starts_with (tests_part (p_log p)) (tests_part (p_log q)) /\ answered_by v g' (p_log q).
Proof. exact served_all. Qed.
Print Assumptions C139_all_ends.
Theorem C139_order_matters : exists v g g' p p', goes g slow_launch p /\ goes g' slow_launch p' /\ p_main p = Gone true /\ p_main p' = Gone true /\ answered_by v g (p_log p) /\ answered_by v g' (p_log p') /\
  (forall id, same_machine (g_world g id) (g_world g' id)) /\ events_of (Tester 0) (p_log p) <> events_of (Tester 0) (p_log p').
Proof. exact order_matters. Qed.
Print Assumptions C139_order_matters.
Example C139_example : (forall path, g_creates (led_by 0) path = true) /\ numbered_apart (@rev _) slow (at_file whole_text) (Some (lit "one")) /\
  goes (led_by 0) slow_launch led_begun /\ (0 < length (events_of (Tester 0) (p_log led_begun)) /\ 0 < length (events_of (Tester 1) (p_log led_begun)))%nat /\ answered_by first_served (led_by 0) (p_log led_begun) /\ (exists q, process_step (led_by 0) led_begun q) /\
  goes (led_by 0) slow_launch led_finish /\ p_main led_finish = Gone true /\ answered_by first_served (led_by 0) (p_log led_finish) /\ starts_with (map fst (tests_part (p_log led_begun))) (map fst (tests_part (p_log led_finish))).
Proof. exact shared_example. Qed.

Example C139_ends_example : (exists src s1 body, loads slow (at_file whole_text) src s1 /\ mget (lit "one") (s_tests src) = Some body /\ N.of_nat (length (rev (s_tests src))) <= 2 ^ 32) /\
  (forall path, g_creates (led_by 0) path = true) /\ (forall id, readable_bodies (g_world (led_by 0) id)) /\ readable_server first_served /\
  goes (led_by 0) slow_launch led_begun /\ answered_by first_served (led_by 0) (p_log led_begun) /\ p_main led_begun = Joining.
Proof. exact served_example. Qed.

