(** C128 *)
From Verif Require Import EvalExamples AssertExamples ReportExamples PrintsProofs PrintsExamples ChainExamples BranchProofs BranchExamples SpecProcess SpecBranch ProcessExamples.
Open Scope N_scope.

(** C128.  Which request is made next follows from what a response says *)

Theorem C128_run : forall iter w root threads duration number record pod d g vars a ta ca ma b tb cb mb c tc cc mc t guard q, definable vars a ta -> definable vars b tb -> definable vars c tc -> NoDup [a; b; c] -> Forall well_written ca -> Forall well_written cb -> Forall well_written cc -> well_written guard -> new_name t ->
  filled vars ta ma -> filled vars tb mb -> filled vars tc mc ->
  read_node (fst root) (snd root) = Some (branch_suite vars a ta ca b tb cb c tc cc t guard) -> threads <> 0 ->
  goes g (launch iter w root (Some t) threads duration number record pod d) q -> p_main q = Gone true ->
  (forall id, answered (g_world g id) ma /\ answered (g_world g id) mb /\ answered (g_world g id) mc) ->
  (forall id tr rs, heard (g_world g id) tr ma rs -> Forall (decidable_for rs) ca /\ exists y, found rs (k_root guard) (k_turns guard) y) ->
  (forall id tr rs, heard (g_world g id) tr mb rs -> Forall (decidable_for rs) cb) -> (forall id tr rs, heard (g_world g id) tr mc rs -> Forall (decidable_for rs) cc) ->
  forall id, id < threads -> exists fs, events_of (Tester id) (p_log q) = forks_events ma mb mc fs /\ forks_rightly (g_world g id) ma a ca mb b cb mc c cc guard fs /\
    N.of_nat (length fs) <= share duration number threads /\ (p_flag q = true -> N.of_nat (length fs) = share duration number threads).
Proof. exact branch_run. Qed.
Print Assumptions C128_run.
Example C128_example : definable shop_vars (lit "look") shop_template /\ definable shop_vars (lit "take") (lit "GET http://{host}/t") /\ definable shop_vars (lit "put") (lit "GET http://{host}/p") /\
  NoDup [lit "look"; lit "take"; lit "put"] /\ Forall well_written name_check /\ Forall well_written no_check /\ Forall well_written less_check /\ well_written ok_guard /\ new_name (lit "t") /\
  filled shop_vars shop_template shop_message /\ filled shop_vars (lit "GET http://{host}/t") t_message /\ filled shop_vars (lit "GET http://{host}/p") p_message /\
  read_node (fst (at_file fork_text)) (snd (at_file fork_text)) = Some fork_text /\
  goes honest_setting (launch (fun l => l) honest (at_file fork_text) (Some (lit "t")) 2 None 4 false [] []) fork_end /\ p_main fork_end = Gone true /\ p_flag fork_end = true /\
  (forall id msg, answered (g_world honest_setting id) msg) /\
  (forall id tr msg rs, heard (g_world honest_setting id) tr msg rs -> Forall (decidable_for rs) name_check /\ Forall (decidable_for rs) no_check /\ Forall (decidable_for rs) less_check /\
     exists y, found rs (k_root ok_guard) (k_turns ok_guard) y) /\
  fork_text = lit "let host = ""h"";" ++ [10] ++ lit "request look`GET http://{host}/`[status == 200]" ++ [10] ++
    lit "request take`GET http://{host}/t`[body == ""no""]" ++ [10] ++ lit "request put`GET http://{host}/p`[body < ""a""]" ++ [10] ++ lit "test t { if (look().body == ""ok"") { take() } else { put() } }" /\
  events_of (Tester 1) (p_log fork_end) = [Sent shop_message; Sent t_message; Printed look_report; Printed t_report; Sent shop_message; Sent p_message; Printed look_report; Printed p_report].
Proof. exact fork_example. Qed.

