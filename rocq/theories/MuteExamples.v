(** Concrete runs: the same responses at another pace, and no responses at all. *)
From Verif Require Import TextProofs EvalExamples ValueExamples AssertExamples ReportExamples SuiteProofs PrintsProofs PrintsExamples ChainExamples BranchExamples WholeProofs WholeExamples TallyExamples MuteProofs SpecProcess SpecBranch SpecTally SpecMute ProcessExamples.
From Coq Require Import Lia.
Open Scope N_scope.

(** the run of C129 at two paces *)
Lemma pace_example : suite_fits shop_vars shop_demands shop_tests /\ (forall id, serves (g_world honest_setting id) shop_demands) /\ (forall id, serves (g_world slow_setting id) shop_demands) /\
  read_node (fst (at_file whole_text)) (snd (at_file whole_text)) = Some whole_text /\ In (lit "one", [take_demand; look_demand; take_demand]) shop_tests /\
  goes honest_setting named_launch named_finish /\ p_main named_finish = Gone true /\ goes slow_setting slow_launch slow_finish /\ p_main slow_finish = Gone true /\
  (forall id, e_host (g_world honest_setting id) = some_host true /\ e_host (g_world slow_setting id) = some_host true) /\
  hd [] (texts_of (events_of (Tester 1) (p_log named_finish))) = with_duration (lit "=== TEST  take" ++ [10] ++ lit "body == ""no"" => ok == no => false" ++ [10] ++ lit "--- FAIL  take") (lit "10ns") /\
  hd [] (texts_of (events_of (Tester 1) (p_log slow_finish))) = with_duration (lit "=== TEST  take" ++ [10] ++ lit "body == ""no"" => ok == no => false" ++ [10] ++ lit "--- FAIL  take") (lit "7.5ms").
Proof.
  destruct tally_example as (A & B & C & D & _ & _ & E & F & _). destruct whole_example as (_ & B' & _ & _ & _ & E' & F' & _). do 9 (split; [assumption|]).
  split; [intros id; split; reflexivity|]. split; vm_compute; reflexivity.
Qed.

(** one thread is not connected, the other cannot write *)
Definition refused : env := Env (some_host true) (fun _ => true) (fun _ _ => Exchange 0 0 (inr TcpConnectFailed) 0 None 0 0 (Reader [] None) 0 0 0).
Definition stuck : env := Env (some_host true) (fun _ => true) (fun _ _ => Exchange 0 0 (inl 1) 3 (Some (WriteFailed (lit "broken pipe"))) 4 5 (Reader [] None) 9 10 11).
Definition dead_setting : setting := Setting true (lit "out") (fun _ => true) (fun _ => []) (fun id => if id =? 0 then refused else stuck) (fun l => l) false.
Definition not_check : list check := [Check (lit "body != ""no""") (lit "body") [] KNe (lit "!=") (EStr (lit "no"))].
Definition poke_demand : demand := Demand (lit "poke") (lit "GET http://{host}/t") not_check t_message.
Definition bare_demand : demand := Demand (lit "bare") shop_template shop_checks shop_message.
Definition dead_demands : list demand := [look_demand; poke_demand; bare_demand].
Definition dead_tests : list (str * list demand) := [(lit "all", dead_demands)].
Definition dead_text : str := whole_suite shop_vars dead_demands dead_tests.
Definition dead_launch : process := launch (@rev _) online (at_file dead_text) (Some (lit "all")) 2 None 2 false [] [].
Definition dead_finish : process := play dead_setting ([Onward; Onward; Onward] ++ taking_turns 20) dead_launch.
Definition dead_events : list event := [Sent shop_message; Sent t_message; Sent shop_message;
  Printed (lit "=== TEST  look" ++ [10] ++ lit "status == 200 => 0 == 200 => false" ++ [10] ++ lit "--- FAIL  look (0ns)" ++ [10]);
  Printed (lit "=== TEST  poke" ++ [10] ++ lit "body != ""no"" =>  != no => true" ++ [10] ++ lit "--- PASS  poke (0ns)" ++ [10]);
  Printed (lit "=== TEST  bare" ++ [10] ++ lit "json[""items""][1].name != ""c"" => null != c => true" ++ [10] ++ lit "status == 200 => 0 == 200 => false" ++ [10] ++
    lit "json.items[2] >= 1.5 => null >= 1.5 => false" ++ [10] ++ lit "--- FAIL  bare (0ns)" ++ [10])].
Lemma dead_example : suite_fits shop_vars dead_demands dead_tests /\
  (forall id, unreachable (g_world dead_setting id) /\ e_host (g_world dead_setting id) = some_host true) /\
  read_node (fst (at_file dead_text)) (snd (at_file dead_text)) = Some dead_text /\ In (lit "all", dead_demands) dead_tests /\
  goes dead_setting dead_launch dead_finish /\ p_main dead_finish = Gone true /\ p_flag dead_finish = true /\
  events_of (Tester 0) (p_log dead_finish) = dead_events /\ events_of (Tester 1) (p_log dead_finish) = dead_events.
Proof.
  destruct fork_example as ((V & Nl & Tl) & (_ & Nt & Tt) & _ & _ & Wl & Wt & _ & _ & _ & Fl & Ft & _).
  split. { split; [exact V|]. split; [repeat constructor; vm_compute; intuition discriminate|]. split.
    { constructor; [auto|]. constructor; [|constructor; [|constructor]].
      - split; [apply new_named; vm_compute; reflexivity|]. split; [exact Tt|]. split; [|exact Ft]. constructor; [|constructor]. apply (text_check (lit "!=") KNe (lit "no")); [cbn; tauto|vm_compute; intuition discriminate|repeat constructor].
      - split; [apply new_named; vm_compute; reflexivity|]. split; [exact Tl|]. split; [exact shop_written|exact Fl]. }
    split; [repeat constructor; vm_compute; intuition discriminate|]. constructor; [|constructor]. split; [apply new_named; vm_compute; reflexivity|]. intros x I; exact I. }
  split. { intros id. assert (R : unreachable refused). { intros tr msg. split; [|left; eexists; reflexivity]. repeat split; try (vm_compute; discriminate). }
    assert (S : unreachable stuck). { intros tr msg. split; [|right; left; do 2 eexists; split; reflexivity]. repeat split; try (vm_compute; discriminate). intros d H. injection H as <-. vm_compute. discriminate. }
    cbn [g_world dead_setting]. destruct (id =? 0); split; auto. }
  split; [vm_compute; reflexivity|]. split; [cbn; auto|]. split; [apply play_goes|]. split; [vm_compute; reflexivity|]. split; [vm_compute; reflexivity|]. split; vm_compute; reflexivity.
Qed.
