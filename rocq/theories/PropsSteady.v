(** C145 *)
From Verif Require Import EvalExamples LiveExamples SteadyProofs SteadyExamples SpecSteady ProcessExamples.
Open Scope N_scope.

(** C145.  One round tells the whole run *)

Theorem C145_run : forall iter w root name threads duration number record pod d g src s1 body p id o s0 round, loads w root src s1 -> mget name (s_tests src) = Some body -> id < threads ->
  carries_nothing (c_reqs (s_ctx s1)) body -> memoryless (g_world g id) -> first_round (g_world g id) body (s_ctx s1) o s0 round ->
  goes g (launch iter w root (Some name) threads duration number record pod d) p ->
  repeating round (exists v, o = Ok v) (share duration number threads) (events_of (Tester id) (p_log p)).
Proof. exact steady_run. Qed.
Print Assumptions C145_run.
Theorem C145_end : forall iter w root name threads duration number record pod d g src s1 body p w1 v s0 round, loads w root src s1 -> mget name (s_tests src) = Some body -> threads <> 0 ->
  carries_nothing (c_reqs (s_ctx s1)) body -> memoryless w1 -> (forall id, id < threads -> g_world g id = w1) -> first_round w1 body (s_ctx s1) (Ok v) s0 round ->
  goes g (launch iter w root (Some name) threads duration number record pod d) p -> p_main p = Gone true ->
  exists ks, length ks = N.to_nat threads /\
  (forall id k, nth_error ks (N.to_nat id) = Some k -> N.of_nat k <= share duration number threads /\ (p_flag p = true -> N.of_nat k = share duration number threads) /\
    events_of (Tester id) (p_log p) = times k round /\
    (record = true -> mget (record_path g pod id) (p_disk p) = Some (recorded g (record_path g pod id) name id (repeat (c_recs (s_ctx s0)) k)))) /\
  (g_stat g = true -> (forall l, Permutation (g_order g l) l) -> exists text, events_of Collector (p_log p) = [Printed text] /\ stat_report (times (list_sum ks) (samples (c_recs (s_ctx s0)))) text).
Proof. exact steady_end. Qed.
Print Assumptions C145_end.
Theorem C145_failing : forall iter w root name threads duration number record pod d g src s1 body p w1 o s0 round, loads w root src s1 -> mget name (s_tests src) = Some body -> threads <> 0 ->
  carries_nothing (c_reqs (s_ctx s1)) body -> memoryless w1 -> (forall id, id < threads -> g_world g id = w1) -> first_round w1 body (s_ctx s1) o s0 round -> (forall v, o <> Ok v) ->
  goes g (launch iter w root (Some name) threads duration number record pod d) p -> p_main p = Gone true ->
  (forall id, id < threads -> (p_flag p = true -> 0 < share duration number threads -> events_of (Tester id) (p_log p) = round) /\
    (events_of (Tester id) (p_log p) = [] \/ events_of (Tester id) (p_log p) = round) /\
    (record = true -> mget (record_path g pod id) (p_disk p) = Some (recorded g (record_path g pod id) name id []))) /\
  (g_stat g = true -> (forall l, Permutation (g_order g l) l) -> events_of Collector (p_log p) = [Printed []]).
Proof. exact failing_end. Qed.
Print Assumptions C145_failing.
Example C145_example : exists src s1 v s0 round, loads online (at_file steady_text) src s1 /\ mget (lit "t") (s_tests src) = Some steady_body /\ carries_nothing (c_reqs (s_ctx s1)) steady_body /\
  memoryless online /\ (forall id, g_world steady_online id = online) /\ first_round online steady_body (s_ctx s1) (Ok v) s0 round /\ length round = 2%nat /\ share None 7 2 = 3 /\
  goes steady_online (steady_go (lit "t")) (steady_half (lit "t")) /\ p_main (steady_half (lit "t")) <> Gone true /\ length (events_of (Tester 0) (p_log (steady_half (lit "t")))) = 3%nat /\
  goes steady_online (steady_go (lit "t")) (steady_finish (lit "t")) /\ p_main (steady_finish (lit "t")) = Gone true /\ p_flag (steady_finish (lit "t")) = true /\ (forall l, Permutation (g_order steady_online l) l) /\
  events_of Collector (p_log (steady_finish (lit "t"))) = [Printed (lit "get count=6  sum=0  avg=0  max=0  min=0" ++ [10])].
Proof. exact repeated_example. Qed.

Example C145_failing_example : exists src s1 e s0 round, loads online (at_file steady_text) src s1 /\ mget (lit "f") (s_tests src) = Some failing_body /\ carries_nothing (c_reqs (s_ctx s1)) failing_body /\
  first_round online failing_body (s_ctx s1) (Err e) s0 round /\ length round = 2%nat /\
  goes steady_online (steady_go (lit "f")) (steady_finish (lit "f")) /\ p_main (steady_finish (lit "f")) = Gone true /\ p_flag (steady_finish (lit "f")) = true.
Proof. exact failing_example. Qed.

