(** Builds with and without overflow checks *)
From Verif Require Export SpecRun SpecSend Session TestCommand.
Open Scope N_scope.

(** the same world seen by a build with overflow checks ([true]) or without *)
Definition in_build (checks : bool) (w : env) : env :=
  Env (Host (h_plain (e_host w)) (h_order (e_host w)) checks) (e_prepare w) (e_net w).
(** threads that differ in the build only *)
Definition same_thread (t t' : thread) : Prop :=
  (exists w, th_env t = in_build true w /\ th_env t' = in_build false w) /\
  th_id t = th_id t' /\ th_phase t = th_phase t' /\ th_number t = th_number t' /\ th_state t = th_state t' /\
  th_file t = th_file t' /\ th_writes t = th_writes t'.
(** runs that differ in the build only *)
Definition same_run (r r' : run) : Prop :=
  Forall2 same_thread (run_threads r) (run_threads r') /\ run_flag r = run_flag r' /\ run_queue r = run_queue r' /\
  run_stats r = run_stats r' /\ run_stat_phase r = run_stat_phase r'.
Definition no_crash (r : run) : Prop := Forall (fun t => th_phase t <> Crashed) (run_threads r).
