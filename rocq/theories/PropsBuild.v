(** C118 *)
From Verif Require Import EvalExamples BuildProofs BuildExamples SpecEval SpecBuild.
Open Scope N_scope.

(** C118.  Builds with and without overflow checks *)

Theorem C118_program : forall (w : env) (es : list expr) (s : st),
  eval_block (in_build true w) es s = eval_block (in_build false w) es s \/
  exists s1, eval_block (in_build true w) es s = (Panic, s1) /\ starts_with (s_trace s1) (s_trace (snd (eval_block (in_build false w) es s))).
Proof. exact builds_agree. Qed.
Print Assumptions C118_program.
Theorem C118_eval : forall (w : env) (text : str),
  eval_main (in_build true w) text = eval_main (in_build false w) text \/
  fst (eval_main (in_build true w) text) = Some false /\
  starts_with (snd (eval_main (in_build true w) text)) (snd (eval_main (in_build false w) text)).
Proof. exact eval_builds. Qed.
Print Assumptions C118_eval.
Theorem C118_session : forall (w : env) (input : incoming),
  repl_main (in_build true w) input = repl_main (in_build false w) input \/
  exists s1, repl_main (in_build true w) input = (Died, s1) /\ starts_with (s_trace s1) (s_trace (snd (repl_main (in_build false w) input))).
Proof. exact session_builds. Qed.
Print Assumptions C118_session.
Theorem C118_test : forall iter (w : env) (text : str) (name : option str) (threads number : N) (pod : option str),
  test_command iter (in_build true w) text name threads number pod = test_command iter (in_build false w) text name threads number pod \/
  exists s1, test_command iter (in_build true w) text name threads number pod = (Panic, s1) /\
    starts_with (s_trace s1) (s_trace (snd (test_command iter (in_build false w) text name threads number pod))).
Proof. exact test_builds. Qed.
Print Assumptions C118_test.
Theorem C118_duration : forall s : str, parse_duration true s = parse_duration false s \/ parse_duration true s = Panic.
Proof. exact durations_agree. Qed.
Print Assumptions C118_duration.
Theorem C118_run : forall order name body c (worlds : N -> env) files (threads maximun : N) stat r,
  executes order name body maximun stat (run_start c (fun i => in_build true (worlds i)) files threads) r -> no_crash r ->
  exists r', executes order name body maximun stat (run_start c (fun i => in_build false (worlds i)) files threads) r' /\ same_run r r'.
Proof. exact runs_forward. Qed.
Print Assumptions C118_run.
Theorem C118_run_back : forall order name body c (worlds : N -> env) files (threads maximun : N) stat,
  (forall r, executes order name body maximun stat (run_start c (fun i => in_build true (worlds i)) files threads) r -> no_crash r) ->
  forall r', executes order name body maximun stat (run_start c (fun i => in_build false (worlds i)) files threads) r' ->
  exists r, executes order name body maximun stat (run_start c (fun i => in_build true (worlds i)) files threads) r /\ same_run r r'.
Proof. exact runs_back. Qed.
Print Assumptions C118_run_back.
Example C118_overflow_example : eval_main (in_build true online) overflowing = (Some false, [Printed (lit "on" ++ [10]); Sent (lit "GET http://h/")]) /\
  eval_main (in_build false online) overflowing =
    (Some true, [Printed (lit "on" ++ [10]); Sent (lit "GET http://h/"); Printed (lit "-9223372036854775609" ++ [10])]).
Proof. exact overflow_example. Qed.

Example C118_agree_example : exists tr,
  eval_main (in_build true online) (lit "request get`GET http://h/`; let r = get(); r.status << 2") = (Some true, tr ++ [Printed (lit "800" ++ [10])]) /\
  eval_main (in_build false online) (lit "request get`GET http://h/`; let r = get(); r.status << 2") = (Some true, tr ++ [Printed (lit "800" ++ [10])]).
Proof. exact agreeing_example. Qed.

Example C118_run_example : executes (fun l => l) (lit "t") adding 2 false (run_start (starting 5) (fun _ => in_build true online) (fun _ => None) 1) (Run [moves true 5 5] true [] [] Receiving) /\
  no_crash (Run [moves true 5 5] true [] [] Receiving) /\ th_phase (moves true 5 5) = Finished /\ mget (lit "n") (c_vars (s_ctx (th_state (moves true 5 5)))) = Some (VInt 7) /\
  th_phase (moves true i64_max 2) = Crashed /\ mget (lit "n") (c_vars (s_ctx (th_state (moves false i64_max 5)))) = Some (VInt (i64_min + 1)).
Proof. exact two_runs_example. Qed.

