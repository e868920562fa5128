(** C122 *)
From Verif Require Import EvalExamples NewExamples GrownProofs GrownExamples SpecGrown ProcessExamples.
Open Scope N_scope.

(** C122.  Suites that grow *)

Theorem C122_alone : forall iter w root src s1 iter' root' src' s1' extra name body threads duration number record pod d d' g p p' id,
  loads w root src s1 -> loads w root' src' s1' -> grown src src' extra name body -> id < threads ->
  goes g (launch iter w root (Some name) threads duration number record pod d) p -> p_main p = Gone true -> p_flag p = true ->
  goes g (launch iter' w root' (Some name) threads duration number record pod d') p' -> p_main p' = Gone true -> p_flag p' = true ->
  events_of (Tester id) (p_log p) = events_of (Tester id) (p_log p') /\
  (record = true -> mget (record_path g pod id) (p_disk p) = mget (record_path g pod id) (p_disk p')).
Proof. exact grown_alone. Qed.
Print Assumptions C122_alone.
Theorem C122_all : forall iter w root src s1 iter' root' src' s1' extra name body threads duration number record pod d g p threads' duration' number' record' pod' d' g' p' id id',
  loads w root src s1 -> loads w root' src' s1' -> grown src src' extra name body ->
  N.of_nat (length (iter (s_tests src))) <= 2 ^ 32 -> nth_error (iter (s_tests src)) (N.to_nat id) = Some (name, body) ->
  N.of_nat (length (iter' (s_tests src'))) <= 2 ^ 32 -> nth_error (iter' (s_tests src')) (N.to_nat id') = Some (name, body) -> g_world g' id' = g_world g id ->
  goes g (launch iter w root None threads duration number record pod d) p -> p_main p = Gone true ->
  goes g' (launch iter' w root' None threads' duration' number' record' pod' d') p' -> p_main p' = Gone true ->
  events_of (Tester id) (p_log p) = events_of (Tester id') (p_log p') /\
  exists bs, (record = true -> mget (record_path g pod id) (p_disk p) = Some (recorded g (record_path g pod id) name id bs)) /\
    (record' = true -> mget (record_path g' pod' id') (p_disk p') = Some (recorded g' (record_path g' pod' id') name id' bs)).
Proof. exact grown_all. Qed.
Print Assumptions C122_all.
Theorem C122_files : forall a f b src sf name body, Forall self_contained (a ++ f :: b) -> parse (List.concat (a ++ b)) = Ok src -> parse f = Ok sf -> s_exprs sf = [] \/ b = [] ->
  mget name (s_tests src) = Some body -> mget name (s_tests sf) = None ->
  (forall e r, In e (s_exprs src ++ body) -> In r (called e) -> mget r (s_requests sf) = None) ->
  (forall e n, In e body -> reads (s_requests src) e n -> ~ In n (flat_map let_names (s_exprs sf))) ->
  exists src', parse (List.concat (a ++ f :: b)) = Ok src' /\ grown src src' (s_exprs sf) name body.
Proof. exact grown_files. Qed.
Print Assumptions C122_files.
Theorem C122_hijacked_refuted : exists p p', let run t := launch (fun l => l) online (at_file t) (Some (lit "u")) 1 None 1 false [] [] in
  goes quiet (run plain_suite) p /\ p_main p = Gone true /\ p_flag p = true /\ goes quiet (run hijacked) p' /\ p_main p' = Gone true /\ p_flag p' = true /\
  p_log p = [(Tester 0, Printed (lit "x"))] /\ In (Tester 0, Sent (lit "GET http://h/")) (p_log p').
Proof. exact grown_hijacked. Qed.
Print Assumptions C122_hijacked_refuted.
Example C122_files_example : Forall self_contained ([small_file] ++ new_file :: []) /\ exists src sf, parse (List.concat ([small_file] ++ [])) = Ok src /\ parse new_file = Ok sf /\
  mget (lit "u") (s_tests src) = Some [EInt 1] /\ mget (lit "u") (s_tests sf) = None /\ s_exprs sf = [] /\ s_exprs src = [] /\ s_requests sf <> [].
Proof. exact files_example. Qed.

Example C122_example : exists src src' s1 s1' body p p', let run t := launch (fun l => l) online (at_file t) (Some (lit "u")) 1 None 1 true [] [] in
  loads online (at_file plain_suite) src s1 /\ loads online (at_file grown_suite) src' s1' /\ grown src src' [ELet (lit "k") (EInt 1)] (lit "u") body /\
  goes plain (run plain_suite) p /\ p_main p = Gone true /\ p_flag p = true /\ goes plain (run grown_suite) p' /\ p_main p' = Gone true /\ p_flag p' = true.
Proof. exact grown_example. Qed.

