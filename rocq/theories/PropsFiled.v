(** C131 *)
From Verif Require Import EvalExamples ReportExamples PrintsExamples ChainExamples BranchExamples WholeProofs WholeExamples TallyExamples RecordProofs FiledProofs FiledExamples SpecProcess SpecBranch SpecTally SpecFiled ProcessExamples.
Open Scope N_scope.

(** C131.  The record file of a thread tells what the thread sent, received and printed *)

Theorem C131_named : forall iter w root threads duration number pod d g vars ds tests t calls q, suite_fits vars ds tests -> In (t, calls) tests ->
  read_node (fst root) (snd root) = Some (whole_suite vars ds tests) -> threads <> 0 ->
  goes g (launch iter w root (Some t) threads duration number true pod d) q -> p_main q = Gone true -> (forall id, serves (g_world g id) ds) ->
  forall id, id < threads -> id < 2 ^ 32 -> share duration number threads <= 2 ^ 32 -> quick (g_world g id) -> g_accepts g (record_path g pod id) = [] ->
  exists vs file, events_of (Tester id) (p_log q) = visits_events calls vs /\ visits_rightly (g_world g id) calls vs /\
    mget (record_path g pod id) (p_disk q) = Some file /\ (small file -> file_tells (g_world g id) t id calls vs file).
Proof. exact filed_named. Qed.
Print Assumptions C131_named.
Theorem C131_all : forall iter w root threads duration number pod d g vars ds tests q, (forall l, Permutation (iter l) l) -> suite_fits vars ds tests -> N.of_nat (length tests) <= 2 ^ 32 ->
  read_node (fst root) (snd root) = Some (whole_suite vars ds tests) ->
  goes g (launch iter w root None threads duration number true pod d) q -> p_main q = Gone true -> (forall id, serves (g_world g id) ds /\ quick (g_world g id)) -> (forall path, g_accepts g path = []) ->
  exists order, Permutation order tests /\
    forall id t calls, nth_error order (N.to_nat id) = Some (t, calls) -> exists xs file, events_of (Tester id) (p_log q) = visit_events calls xs /\ visit_rightly (g_world g id) [] calls xs /\
      mget (record_path g pod id) (p_disk q) = Some file /\ (small file -> file_tells (g_world g id) t id calls [xs] file).
Proof. exact filed_all. Qed.
Print Assumptions C131_all.
Example C131_example : suite_fits shop_vars shop_demands shop_tests /\ (forall id, serves (g_world slow_setting id) shop_demands /\ quick (g_world slow_setting id)) /\
  read_node (fst (at_file whole_text)) (snd (at_file whole_text)) = Some whole_text /\ In (lit "one", [take_demand; look_demand; take_demand]) shop_tests /\
  (forall path, g_accepts slow_setting path = []) /\ goes slow_setting filed_launch filed_finish /\ p_main filed_finish = Gone true /\
  record_path slow_setting (lit "p") 1 = lit "out/p000001" /\ (exists file, mget (lit "out/p000001") (p_disk filed_finish) = Some file /\ small file /\ length file = 2635%nat) /\
  goes slow_setting all_filed_launch all_filed_finish /\ p_main all_filed_finish = Gone true /\
  map (fun n => option_map (@length N) (mget n (p_disk all_filed_finish))) [lit "out/p000000"; lit "out/p000001"; lit "out/p000002"; lit "out/p000003"] = [Some 2139%nat; Some 2041%nat; Some 2329%nat; None].
Proof. exact filed_example. Qed.

