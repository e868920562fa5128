(** A concrete suite with several requests and tests. *)
From Verif Require Import TextProofs JsonProofs EvalExamples ValidProofs AssertProofs AssertExamples ReportExamples SuiteProofs PrintsProofs PrintsExamples ChainExamples BranchExamples WholeProofs SpecProcess SpecBranch SpecWhole ProcessExamples.
Open Scope N_scope.

Definition look_demand : demand := Demand (lit "look") shop_template name_check shop_message.
Definition take_demand : demand := Demand (lit "take") (lit "GET http://{host}/t") no_check t_message.
Definition shop_demands : list demand := [look_demand; take_demand].
Definition shop_tests : list (str * list demand) := [(lit "one", [take_demand; look_demand; take_demand]); (lit "idle", []); (lit "two", [look_demand])].
Definition whole_text : str := whole_suite shop_vars shop_demands shop_tests.
Definition named_launch : process := launch (@rev _) honest (at_file whole_text) (Some (lit "one")) 2 None 4 false [] [].
Definition all_tests_launch : process := launch (@rev _) honest (at_file whole_text) None 1 None 1 false [] [].
Definition named_finish : process := play honest_setting ([Onward; Onward; Onward] ++ taking_turns 20) named_launch.
Definition all_finish : process := play honest_setting ([Onward; Onward; Onward; Onward] ++ repeat (Moves 2) 20 ++ taking_turns 20) all_tests_launch.
Definition t_fails : str := lit "=== TEST  take" ++ [10] ++ lit "body == ""no"" => ok == no => false" ++ [10] ++ lit "--- FAIL  take (10ns)" ++ [10].
Lemma whole_example : suite_fits shop_vars shop_demands shop_tests /\ (forall id, serves (g_world honest_setting id) shop_demands) /\
  read_node (fst (at_file whole_text)) (snd (at_file whole_text)) = Some whole_text /\ In (lit "one", [take_demand; look_demand; take_demand]) shop_tests /\
  whole_text = lit "let host = ""h"";" ++ [10] ++ lit "request look`GET http://{host}/`[status == 200]" ++ [10] ++ lit "request take`GET http://{host}/t`[body == ""no""]" ++ [10] ++
    lit "test one { take(); look(); take(); }" ++ [10] ++ lit "test idle { }" ++ [10] ++ lit "test two { look(); }" ++ [10] /\
  goes honest_setting named_launch named_finish /\ p_main named_finish = Gone true /\ p_flag named_finish = true /\
  events_of (Tester 1) (p_log named_finish) =
    [Sent t_message; Sent shop_message; Sent t_message; Printed t_fails; Printed look_report; Printed t_report] ++
    [Sent t_message; Sent shop_message; Sent t_message; Printed t_report; Printed look_report; Printed t_report] /\
  goes honest_setting all_tests_launch all_finish /\ p_main all_finish = Gone true /\
  map (fun id => events_of (Tester id) (p_log all_finish)) [0; 1; 2; 3] =
    [[Sent shop_message; Printed look_report]; []; [Sent t_message; Sent shop_message; Sent t_message; Printed t_fails; Printed look_report; Printed t_report]; []].
Proof.
  destruct fork_example as ((V & Nl & Tl) & (_ & Nt & Tt) & _ & _ & Wl & Wt & _ & _ & _ & Fl & Ft & _ & _ & _ & _ & _ & An & De & _).
  split. { split; [exact V|]. split; [repeat constructor; vm_compute; intuition discriminate|]. split; [constructor; [auto|constructor; auto]|]. split; [repeat constructor; vm_compute; intuition discriminate|].
    repeat apply Forall_cons; try apply Forall_nil; (split; [apply new_named; vm_compute; reflexivity|]); intros q I; cbn in I |- *; intuition. }
  split. { intros id. repeat apply Forall_cons; try apply Forall_nil; (split; [apply An|]); intros tr rs H; apply De in H; tauto. }
  split; [vm_compute; reflexivity|]. split; [cbn; auto|]. split; [vm_compute; reflexivity|]. split; [apply play_goes|]. split; [vm_compute; reflexivity|]. split; [vm_compute; reflexivity|]. split; [vm_compute; reflexivity|].
  split; [apply play_goes|]. split; vm_compute; reflexivity.
Qed.
