(** C129 *)
From Verif Require Import EvalExamples AssertExamples ReportExamples PrintsProofs PrintsExamples ChainExamples BranchExamples WholeProofs WholeExamples SpecProcess SpecBranch SpecWhole ProcessExamples.
Open Scope N_scope.

(** C129.  What suites with any number of requests and tests send and print *)

Theorem C129_named : forall iter w root threads duration number record pod d g vars ds tests t calls q, suite_fits vars ds tests -> In (t, calls) tests ->
  read_node (fst root) (snd root) = Some (whole_suite vars ds tests) -> threads <> 0 ->
  goes g (launch iter w root (Some t) threads duration number record pod d) q -> p_main q = Gone true -> (forall id, serves (g_world g id) ds) ->
  forall id, id < threads -> exists vs, events_of (Tester id) (p_log q) = visits_events calls vs /\ visits_rightly (g_world g id) calls vs /\
    N.of_nat (length vs) <= share duration number threads /\ (p_flag q = true -> N.of_nat (length vs) = share duration number threads).
Proof. exact whole_named. Qed.
Print Assumptions C129_named.
Theorem C129_all : forall iter w root threads duration number record pod d g vars ds tests q, (forall l, Permutation (iter l) l) -> suite_fits vars ds tests -> N.of_nat (length tests) <= 2 ^ 32 ->
  read_node (fst root) (snd root) = Some (whole_suite vars ds tests) ->
  goes g (launch iter w root None threads duration number record pod d) q -> p_main q = Gone true -> (forall id, serves (g_world g id) ds) ->
  exists order, Permutation order tests /\
    (forall id t calls, nth_error order (N.to_nat id) = Some (t, calls) -> exists xs, events_of (Tester id) (p_log q) = visit_events calls xs /\ visit_rightly (g_world g id) [] calls xs) /\
    forall id, N.of_nat (length tests) <= id -> events_of (Tester id) (p_log q) = [].
Proof. exact whole_all. Qed.
Print Assumptions C129_all.
Theorem C129_ends : forall iter w root name threads duration number record pod d g vars ds tests p, (forall l, Permutation (iter l) l) -> suite_fits vars ds tests -> N.of_nat (length tests) <= 2 ^ 32 ->
  read_node (fst root) (snd root) = Some (whole_suite vars ds tests) -> (forall t, name = Some t -> In t (map fst tests) /\ threads <> 0) -> (record = true -> forall path, g_creates g path = true) ->
  (forall id, serves (g_world g id) ds) -> goes g (launch iter w root name threads duration number record pod d) p -> exists p', goes g p p' /\ p_main p' = Gone true.
Proof. exact whole_ends. Qed.
Print Assumptions C129_ends.
Example C129_example : suite_fits shop_vars shop_demands shop_tests /\ (forall id, serves (g_world honest_setting id) shop_demands) /\
  read_node (fst (at_file whole_text)) (snd (at_file whole_text)) = Some whole_text /\ In (lit "one", [take_demand; look_demand; take_demand]) shop_tests /\
  whole_text = lit "let host = ""h"";" ++ [10] ++ lit "request look`GET http://{host}/`[status == 200]" ++ [10] ++ lit "request take`GET http://{host}/t`[body == ""no""]" ++ [10] ++
    lit "test one { take(); look(); take(); }" ++ [10] ++ lit "test idle { }" ++ [10] ++ lit "test two { look(); }" ++ [10] /\
  goes honest_setting named_launch named_finish /\ p_main named_finish = Gone true /\ p_flag named_finish = true /\
  events_of (Tester 1) (p_log named_finish) =
    [Sent t_message; Sent shop_message; Sent t_message; Printed t_fails; Printed look_report; Printed t_report] ++
    [Sent t_message; Sent shop_message; Sent t_message; Printed t_report; Printed look_report; Printed t_report] /\
  goes honest_setting all_tests_launch all_finish /\ p_main all_finish = Gone true /\
  map (fun id => events_of (Tester id) (p_log all_finish)) [0; 1; 2; 3] =
    [[Sent shop_message; Printed look_report]; []; [Sent t_message; Sent shop_message; Sent t_message; Printed t_fails; Printed look_report; Printed t_report]; []].
Proof. exact whole_example. Qed.

