(** C120 *)
From Verif Require Import EvalExamples ModesProofs SpecModes ProcessExamples.
Open Scope N_scope.

(** C120.  A test run by its name and with all others *)

Theorem C120_alike : forall iter w root src s1 name body id threads duration number record pod d g p threads' number' record' pod' d' g' q id',
  loads w root src s1 -> mget name (s_tests src) = Some body -> N.of_nat (length (iter (s_tests src))) <= 2 ^ 32 -> nth_error (iter (s_tests src)) (N.to_nat id) = Some (name, body) ->
  goes g (launch iter w root None threads duration number record pod d) p -> p_main p = Gone true ->
  goes g' (launch iter w root (Some name) threads' None number' record' pod' d') q -> p_main q = Gone true -> p_flag q = true -> share None number' threads' = 1 -> id' < threads' ->
  g_world g' id' = g_world g id ->
  exists bs bs', alike (g_world g id) (events_of (Tester id') (p_log q)) bs (events_of (Tester id) (p_log p)) bs' /\
    (record' = true -> mget (record_path g' pod' id') (p_disk q) = Some (recorded g' (record_path g' pod' id') name id' bs)) /\
    (record = true -> mget (record_path g pod id) (p_disk p) = Some (recorded g (record_path g pod id) name id bs')) /\
    (bs = bs' \/ exists e s2, eval_block (g_world g id) body (St (Ctx (c_vars (s_ctx s1)) (c_reqs (s_ctx s1)) []) []) = (Err e, s2)).
Proof. exact modes_alike. Qed.
Print Assumptions C120_alike.
Theorem C120_failed_refuted : exists w root iter p q r file,
  goes plain (launch iter w root None 1 None 1 true (lit "p") []) p /\ p_main p = Gone true /\
  goes plain (launch iter w root (Some (lit "t")) 1 None 1 true (lit "p") []) q /\ p_main q = Gone true /\ p_flag q = true /\
  events_of (Tester 0) (p_log p) = events_of (Tester 0) (p_log q) ++ lines [r] /\
  mget (record_path plain (lit "p") 0) (p_disk q) = Some file /\ mget (record_path plain (lit "p") 0) (p_disk p) = Some (file ++ block [r] (lit "t") 0 0).
Proof. exact modes_differ. Qed.
Print Assumptions C120_failed_refuted.
Example C120_example : exists src s1 body, loads online (at_file failing_text) src s1 /\ s_tests src = [(lit "t", body)] /\ share None 1 1 = 1.
Proof. exact failing_loads. Qed.

