(** C141 *)
From Verif Require Import EvalExamples PrintsExamples WholeExamples TallyExamples LongerProofs LongerExamples SpecProcess ProcessExamples.
Open Scope N_scope.

(** C141.  Longer runs begin like shorter ones, and each thread does what a single one does *)

Theorem C141_agree : forall iter iter' w root name threads threads' duration duration' number number' record record' pod pod' d d' g g' src s1 body p p' id id', loads w root src s1 -> mget name (s_tests src) = Some body ->
  id < threads -> id' < threads' -> g_world g id = g_world g' id' ->
  goes g (launch iter w root (Some name) threads duration number record pod d) p -> goes g' (launch iter' w root (Some name) threads' duration' number' record' pod' d') p' ->
  starts_with (events_of (Tester id) (p_log p)) (events_of (Tester id') (p_log p')) \/ starts_with (events_of (Tester id') (p_log p')) (events_of (Tester id) (p_log p)).
Proof. exact rounds_agree. Qed.
Print Assumptions C141_agree.
Theorem C141_more : forall iter iter' w root name threads threads' duration duration' number number' record record' pod pod' d d' g g' src s1 body p p' id id', loads w root src s1 -> mget name (s_tests src) = Some body ->
  id < threads -> id' < threads' -> g_world g id = g_world g' id' -> share duration' number' threads' <= share duration number threads ->
  goes g (launch iter w root (Some name) threads duration number record pod d) p -> p_main p = Gone true -> p_flag p = true ->
  goes g' (launch iter' w root (Some name) threads' duration' number' record' pod' d') p' ->
  starts_with (events_of (Tester id') (p_log p')) (events_of (Tester id) (p_log p)).
Proof. exact rounds_more. Qed.
Print Assumptions C141_more.
Theorem C141_single : forall iter iter' w root name threads number record record' pod pod' d d' g g' src s1 body p p' id, loads w root src s1 -> mget name (s_tests src) = Some body ->
  id < threads -> g_world g id = g_world g' 0 ->
  goes g (launch iter w root (Some name) threads None number record pod d) p -> p_main p = Gone true -> p_flag p = true ->
  goes g' (launch iter' w root (Some name) 1 None (number / threads) record' pod' d') p' -> p_main p' = Gone true -> p_flag p' = true ->
  events_of (Tester id) (p_log p) = events_of (Tester 0) (p_log p').
Proof. exact rounds_same. Qed.
Print Assumptions C141_single.
Theorem C141_recorded : forall iter iter' w root name threads threads' duration duration' number number' pod pod' d d' g g' src s1 body p p' id, loads w root src s1 -> mget name (s_tests src) = Some body ->
  id < threads -> id < threads' -> g_world g id = g_world g' id -> g_accepts g (record_path g pod id) = g_accepts g' (record_path g' pod' id) -> share duration' number' threads' <= share duration number threads ->
  goes g (launch iter w root (Some name) threads duration number true pod d) p -> p_main p = Gone true -> p_flag p = true ->
  goes g' (launch iter' w root (Some name) threads' duration' number' true pod' d') p' -> p_main p' = Gone true ->
  exists a b, mget (record_path g' pod' id) (p_disk p') = Some a /\ mget (record_path g pod id) (p_disk p) = Some b /\ starts_with a b.
Proof. exact rounds_recorded. Qed.
Print Assumptions C141_recorded.
Example C141_example : (exists src s1 body, loads slow (at_file whole_text) src s1 /\ mget (lit "one") (s_tests src) = Some body) /\
  goes slow_setting slow_launch slow_finish /\ p_main slow_finish = Gone true /\ p_flag slow_finish = true /\
  goes slow_setting (one_launch 2) (one_finish 2) /\ p_main (one_finish 2) = Gone true /\ p_flag (one_finish 2) = true /\ 4 / 2 = 2 /\
  goes slow_setting (one_launch 3) (one_finish 3) /\ p_main (one_finish 3) = Gone true /\ p_flag (one_finish 3) = true /\ share None 2 1 < share None 3 1 /\
  length (events_of (Tester 0) (p_log (one_finish 2))) = 12%nat /\ length (events_of (Tester 0) (p_log (one_finish 3))) = 18%nat /\ record_path slow_setting (lit "pod") 0 = lit "out/pod000000".
Proof. exact longer_example. Qed.

