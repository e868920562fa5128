(** C132 and C133 *)
From Verif Require Import EvalExamples ValueExamples ReportExamples PrintsExamples ChainExamples BranchExamples WholeProofs WholeExamples TallyExamples MuteProofs MuteExamples SpecProcess SpecBranch SpecTally SpecMute ProcessExamples.
Open Scope N_scope.

(** C132.  The report about a request depends on nothing but its response and the duration *)

Theorem C132_named : forall h, exists said, forall iter w root threads duration number record pod d g vars ds tests t calls q, suite_fits vars ds tests -> In (t, calls) tests ->
  read_node (fst root) (snd root) = Some (whole_suite vars ds tests) -> threads <> 0 ->
  goes g (launch iter w root (Some t) threads duration number record pod d) q -> p_main q = Gone true -> (forall id, serves (g_world g id) ds) ->
  forall id, id < threads -> e_host (g_world g id) = h ->
  exists vs, events_of (Tester id) (p_log q) = visits_events calls vs /\ visits_rightly (g_world g id) calls vs /\ Forall (said_so said calls) vs.
Proof. exact same_named. Qed.
Print Assumptions C132_named.
Theorem C132_all : forall h, exists said, forall iter w root threads duration number record pod d g vars ds tests q, (forall l, Permutation (iter l) l) -> suite_fits vars ds tests -> N.of_nat (length tests) <= 2 ^ 32 ->
  read_node (fst root) (snd root) = Some (whole_suite vars ds tests) ->
  goes g (launch iter w root None threads duration number record pod d) q -> p_main q = Gone true -> (forall id, serves (g_world g id) ds) -> (forall id, e_host (g_world g id) = h) ->
  exists order, Permutation order tests /\
    forall id t calls, nth_error order (N.to_nat id) = Some (t, calls) ->
      exists xs, events_of (Tester id) (p_log q) = visit_events calls xs /\ visit_rightly (g_world g id) [] calls xs /\ said_so said calls xs.
Proof. exact same_all. Qed.
Print Assumptions C132_all.
Example C132_example : suite_fits shop_vars shop_demands shop_tests /\ (forall id, serves (g_world honest_setting id) shop_demands) /\ (forall id, serves (g_world slow_setting id) shop_demands) /\
  read_node (fst (at_file whole_text)) (snd (at_file whole_text)) = Some whole_text /\ In (lit "one", [take_demand; look_demand; take_demand]) shop_tests /\
  goes honest_setting named_launch named_finish /\ p_main named_finish = Gone true /\ goes slow_setting slow_launch slow_finish /\ p_main slow_finish = Gone true /\
  (forall id, e_host (g_world honest_setting id) = some_host true /\ e_host (g_world slow_setting id) = some_host true) /\
  hd [] (texts_of (events_of (Tester 1) (p_log named_finish))) = with_duration (lit "=== TEST  take" ++ [10] ++ lit "body == ""no"" => ok == no => false" ++ [10] ++ lit "--- FAIL  take") (lit "10ns") /\
  hd [] (texts_of (events_of (Tester 1) (p_log slow_finish))) = with_duration (lit "=== TEST  take" ++ [10] ++ lit "body == ""no"" => ok == no => false" ++ [10] ++ lit "--- FAIL  take") (lit "7.5ms").
Proof. exact pace_example. Qed.

(** C133.  Requests without a response are reported as if about an empty one *)

Theorem C133_exchange : forall prepare x msg, ordered x -> mute x -> exists t e, client_send prepare x msg = Ok (fst (request_from prepare msg), nothing, t, report e) /\ t_total t = 0.
Proof. exact mute_exchange. Qed.
Print Assumptions C133_exchange.
Theorem C133_answered : forall w ds, unreachable w -> serves w ds.
Proof. exact mute_serves. Qed.
Print Assumptions C133_answered.
Theorem C133_named : forall h, exists said, forall iter w root threads duration number record pod d g vars ds tests t calls q, suite_fits vars ds tests -> In (t, calls) tests ->
  read_node (fst root) (snd root) = Some (whole_suite vars ds tests) -> threads <> 0 ->
  goes g (launch iter w root (Some t) threads duration number record pod d) q -> p_main q = Gone true -> (forall id, unreachable (g_world g id) /\ e_host (g_world g id) = h) ->
  forall id, id < threads -> exists n, events_of (Tester id) (p_log q) = List.concat (repeat (vain_visit said calls) n) /\
    N.of_nat n <= share duration number threads /\ (p_flag q = true -> N.of_nat n = share duration number threads) /\
    (n <> O -> forall x, In x calls -> check_report nothing (d_name x) (d_checks x) (with_duration (said x nothing) (lit "0ns"))).
Proof. exact vain_run. Qed.
Print Assumptions C133_named.
Theorem C133_all : forall h, exists said, forall iter w root threads duration number record pod d g vars ds tests q, (forall l, Permutation (iter l) l) -> suite_fits vars ds tests -> N.of_nat (length tests) <= 2 ^ 32 ->
  read_node (fst root) (snd root) = Some (whole_suite vars ds tests) ->
  goes g (launch iter w root None threads duration number record pod d) q -> p_main q = Gone true -> (forall id, unreachable (g_world g id) /\ e_host (g_world g id) = h) ->
  exists order, Permutation order tests /\
    forall id t calls, nth_error order (N.to_nat id) = Some (t, calls) -> events_of (Tester id) (p_log q) = vain_visit said calls /\
      forall x, In x calls -> check_report nothing (d_name x) (d_checks x) (with_duration (said x nothing) (lit "0ns")).
Proof. exact vain_all. Qed.
Print Assumptions C133_all.
Theorem C133_ends : forall iter w root name threads duration number record pod d g vars ds tests p, (forall l, Permutation (iter l) l) -> suite_fits vars ds tests -> N.of_nat (length tests) <= 2 ^ 32 ->
  read_node (fst root) (snd root) = Some (whole_suite vars ds tests) -> (forall t, name = Some t -> In t (map fst tests) /\ threads <> 0) -> (record = true -> forall path, g_creates g path = true) ->
  (forall id, unreachable (g_world g id)) -> goes g (launch iter w root name threads duration number record pod d) p -> exists p', goes g p p' /\ p_main p' = Gone true.
Proof. exact vain_ends. Qed.
Print Assumptions C133_ends.
Example C133_example : suite_fits shop_vars dead_demands dead_tests /\
  (forall id, unreachable (g_world dead_setting id) /\ e_host (g_world dead_setting id) = some_host true) /\
  read_node (fst (at_file dead_text)) (snd (at_file dead_text)) = Some dead_text /\ In (lit "all", dead_demands) dead_tests /\
  goes dead_setting dead_launch dead_finish /\ p_main dead_finish = Gone true /\ p_flag dead_finish = true /\
  events_of (Tester 0) (p_log dead_finish) = dead_events /\ events_of (Tester 1) (p_log dead_finish) = dead_events.
Proof. exact dead_example. Qed.

