(** C137 *)
From Verif Require Import EvalExamples PrintsExamples WholeExamples TallyExamples ShuffleProofs ShuffleExamples SpecProcess SpecAside SpecShuffle ProcessExamples.
Open Scope N_scope.

(** C137.  The threads do not wait for each other: every order of their doings is possible *)

Theorem C137_any_order : forall g iter w root name threads duration number record pod d p l', (forall path, g_creates g path = true) -> numbered_apart iter w root name ->
  goes g (launch iter w root name threads duration number record pod d) p -> reordered (p_log p) l' ->
  exists p', goes g (launch iter w root name threads duration number record pod d) p' /\ tests_part (p_log p') = l' /\ p_flag p' = p_flag p /\ (forall b, p_main p = Gone b -> p_main p' = Gone b).
Proof. exact shuffle_run. Qed.
Print Assumptions C137_any_order.
Theorem C137_ordered : forall g iter w root name threads duration number record pod d p, numbered_apart iter w root name ->
  goes g (launch iter w root name threads duration number record pod d) p -> reordered (p_log p) (tests_part (p_log p)).
Proof. exact run_ordered. Qed.
Print Assumptions C137_ordered.
Theorem C137_agree : forall g iter w root name threads duration number record record' pod pod' d d' p p', numbered_apart iter w root name ->
  goes g (launch iter w root name threads duration number record pod d) p -> goes g (launch iter w root name threads duration number record' pod' d') p' ->
  events_of Main (p_log p) = events_of Main (p_log p') /\
  (forall id, starts_with (events_of (Tester id) (p_log p)) (events_of (Tester id) (p_log p')) \/ starts_with (events_of (Tester id) (p_log p')) (events_of (Tester id) (p_log p))) /\
  ((forall path, g_creates g path = true) -> p_main p = Gone true -> p_flag p = true -> forall id, starts_with (events_of (Tester id) (p_log p')) (events_of (Tester id) (p_log p))).
Proof. exact runs_agree. Qed.
Print Assumptions C137_agree.
Theorem C137_exactly : forall g iter w root name threads duration number record pod d p, (forall path, g_creates g path = true) -> numbered_apart iter w root name ->
  goes g (launch iter w root name threads duration number record pod d) p -> p_main p = Gone true -> p_flag p = true -> forall l,
  reordered (p_log p) l <-> exists p', goes g (launch iter w root name threads duration number record pod d) p' /\ p_main p' = Gone true /\ p_flag p' = true /\ tests_part (p_log p') = l.
Proof. exact runs_shuffled. Qed.
Print Assumptions C137_exactly.
Example C137_example : (forall path, g_creates slow_setting path = true) /\ numbered_apart (@rev _) slow (at_file whole_text) (Some (lit "one")) /\ goes slow_setting slow_launch slow_finish /\ p_main slow_finish = Gone true /\
  reordered (p_log slow_finish) (second_first (p_log slow_finish)) /\ second_first (p_log slow_finish) <> tests_part (p_log slow_finish) /\
  map (fun id => length (events_of (Tester id) (p_log slow_finish))) [0; 1] = [12%nat; 12%nat].
Proof. exact shuffle_example. Qed.

