(** A run of the suite of SuiteProofs.v. *)
From Verif Require Import EvalExamples SuiteProofs SpecProcess SpecArrives ProcessExamples.
Open Scope N_scope.

Definition demo_suite : str * node := at_file (test_text demo_vars (lit "post") demo_template (lit "t")).
Definition demo_end : process := play plain ([Onward; Onward; Onward] ++ taking_turns 30) (launch (fun l => l) online demo_suite (Some (lit "t")) 2 None 5 false [] []).
Lemma suite_run_example : goes plain (launch (fun l => l) online demo_suite (Some (lit "t")) 2 None 5 false [] []) demo_end /\
  read_node (fst demo_suite) (snd demo_suite) = Some (test_text demo_vars (lit "post") demo_template (lit "t")) /\
  p_main demo_end = Gone true /\ p_flag demo_end = true /\ (forall id, answered (g_world plain id) demo_message) /\
  map (fun id => messages (events_of (Tester id) (p_log demo_end))) [0; 1; 2] = [[demo_message; demo_message]; [demo_message; demo_message]; []].
Proof.
  split; [apply play_goes|]. split; [vm_compute; reflexivity|]. split; [vm_compute; reflexivity|]. split; [vm_compute; reflexivity|]. split; [|vm_compute; reflexivity].
  intros id tr. destruct (client_send (e_prepare (g_world plain id)) (e_net (g_world plain id) tr demo_message) demo_message) as [[[[rq rs] t] e]|e| |] eqn:E;
    vm_compute in E; try discriminate E.
  exists rq, rs, t, e. destruct (to_map (e_host (g_world plain id)) rs) as [m|x| |] eqn:M; injection E as <- <- <- <-; vm_compute in M; try discriminate M. eauto.
Qed.
