(** C130 *)
From Verif Require Import EvalExamples ReportExamples PrintsExamples ChainExamples BranchExamples WholeProofs WholeExamples TallyProofs TallyExamples SpecProcess SpecBranch SpecTally ProcessExamples.
Open Scope N_scope.

(** C130.  The statistics count every request made and sum up the durations reported *)

Theorem C130_named : forall iter w root threads duration number record pod d g vars ds tests t calls q, suite_fits vars ds tests -> In (t, calls) tests ->
  read_node (fst root) (snd root) = Some (whole_suite vars ds tests) -> threads <> 0 ->
  goes g (launch iter w root (Some t) threads duration number record pod d) q -> p_main q = Gone true -> (forall id, serves (g_world g id) ds) ->
  g_stat g = true -> (forall ks, Permutation (g_order g ks) ks) ->
  exists tss l text, p_log q = l ++ [(Collector, Printed text)] /\ events_of Collector l = [] /\ stat_report (List.concat tss) text /\
    length tss = N.to_nat threads /\ (forall id ts, nth_error tss (N.to_nat id) = Some ts -> Forall2 timed (texts_of (events_of (Tester id) (p_log q))) ts) /\
    (p_flag q = true -> forall n, N.of_nat (length (samples_of n (List.concat tss))) = threads * share duration number threads * times_made n calls).
Proof. exact whole_tally. Qed.
Print Assumptions C130_named.
Example C130_example : suite_fits shop_vars shop_demands shop_tests /\ (forall id, serves (g_world slow_setting id) shop_demands) /\
  read_node (fst (at_file whole_text)) (snd (at_file whole_text)) = Some whole_text /\ In (lit "one", [take_demand; look_demand; take_demand]) shop_tests /\
  g_stat slow_setting = true /\ (forall ks, Permutation (g_order slow_setting ks) ks) /\ goes slow_setting slow_launch slow_finish /\ p_main slow_finish = Gone true /\ p_flag slow_finish = true /\
  map (fun n => 2 * share None 4 2 * times_made n [take_demand; look_demand; take_demand]) [lit "take"; lit "look"; lit "put"] = [8; 4; 0] /\
  exists l, p_log slow_finish = l ++ [(Collector, Printed (lit "take count=8  sum=26  avg=3  max=7  min=2" ++ [10] ++ lit "look count=4  sum=8  avg=2  max=2  min=2" ++ [10]))].
Proof. exact tally_example. Qed.

