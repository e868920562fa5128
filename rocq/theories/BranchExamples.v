(** A concrete suite that makes one request or another. *)
From Verif Require Import TextProofs JsonProofs EvalExamples ValidProofs AssertProofs AssertExamples ReportExamples SuiteProofs PrintsProofs PrintsExamples ChainExamples BranchProofs SpecProcess SpecBranch ProcessExamples.
Open Scope N_scope.

Definition honest_setting : setting := Setting true (lit "out") (fun _ => true) (fun _ => []) (fun _ => honest) (fun l => l) false.
Definition honest_response (tr : list event) : response := Response (lit "HTTP/1.1") 200 (lit "OK") [] (match tr with [] => lit "ok" | _ => lit "no" end).
Lemma honest_client tr msg : exists rq t, client_send (e_prepare honest) (e_net honest tr msg) msg = Ok (rq, honest_response tr, t, []).
Proof.
  assert (E : forall p, exists rq t, client_send p (e_net honest tr []) msg = Ok (rq, honest_response tr, t, [])).
  { intros p. unfold client_send. destruct (request_from p msg) as [q c]. destruct tr as [|ev tr]; vm_compute; eauto. }
  apply E.
Qed.
Lemma honest_answers msg : answered honest msg.
Proof.
  intros tr. destruct (honest_client tr msg) as (rq & t & E). exists rq, (honest_response tr), t, (@nil N).
  destruct (to_map (e_host honest) (honest_response tr)) as [m|x| |] eqn:M; [eauto|destruct tr; vm_compute in M; discriminate M..].
Qed.
Lemma honest_heard tr msg rs : heard honest tr msg rs -> rs = honest_response tr.
Proof. intros (rq & t & er & E). destruct (honest_client tr msg) as (rq' & t' & E'). rewrite E in E'. now injection E' as _ <- _ _. Qed.
Definition ok_guard : check := Check (lit "body == ""ok""") (lit "body") [] KEq (lit "==") (EStr (lit "ok")).
Definition no_check : list check := [Check (lit "body == ""no""") (lit "body") [] KEq (lit "==") (EStr (lit "no"))].
Definition less_check : list check := [Check (lit "body < ""a""") (lit "body") [] KLt (lit "<") (EStr (lit "a"))].
Definition fork_text : str := branch_suite shop_vars (lit "look") shop_template name_check (lit "take") (lit "GET http://{host}/t") no_check (lit "put") (lit "GET http://{host}/p") less_check (lit "t") ok_guard.
Definition t_message : str := lit "GET http://h/t".
Definition p_message : str := lit "GET http://h/p".
Definition look_report : str := lit "=== TEST  look" ++ [10] ++ lit "status == 200 => 200 == 200 => true" ++ [10] ++ lit "--- PASS  look (10ns)" ++ [10].
Definition t_report : str := lit "=== TEST  take" ++ [10] ++ lit "body == ""no"" => no == no => true" ++ [10] ++ lit "--- PASS  take (10ns)" ++ [10].
Definition p_report : str := lit "=== TEST  put" ++ [10] ++ lit "body < ""a"" => no < a => false" ++ [10] ++ lit "--- FAIL  put (10ns)" ++ [10].
Definition fork_end : process := play honest_setting ([Onward; Onward; Onward] ++ taking_turns 20) (launch (fun l => l) honest (at_file fork_text) (Some (lit "t")) 2 None 4 false [] []).
Lemma text_check o k s : In (k, o) comparisons -> ~ In 34 s -> scalars s -> well_written (Check (lit "body " ++ o ++ lit " """ ++ s ++ lit """") (lit "body") [] k o (EStr s)).
Proof.
  intros I N S. unfold well_written. cbn [k_text k_root k_turns k_kind k_sign k_literal].
  replace (lit "body " ++ o ++ lit " """ ++ s ++ lit """") with (lit "body" ++ List.concat [] ++ lit " " ++ o ++ lit " " ++ (lit """" ++ s ++ lit """")) by reflexivity.
  apply (cw (lit "body") [] [] k o (EStr s)); [apply new_named; vm_compute; reflexivity|constructor|exact I|now constructor].
Qed.
Lemma fork_example : definable shop_vars (lit "look") shop_template /\ definable shop_vars (lit "take") (lit "GET http://{host}/t") /\ definable shop_vars (lit "put") (lit "GET http://{host}/p") /\
  NoDup [lit "look"; lit "take"; lit "put"] /\ Forall well_written name_check /\ Forall well_written no_check /\ Forall well_written less_check /\ well_written ok_guard /\ new_name (lit "t") /\
  filled shop_vars shop_template shop_message /\ filled shop_vars (lit "GET http://{host}/t") t_message /\ filled shop_vars (lit "GET http://{host}/p") p_message /\
  read_node (fst (at_file fork_text)) (snd (at_file fork_text)) = Some fork_text /\
  goes honest_setting (launch (fun l => l) honest (at_file fork_text) (Some (lit "t")) 2 None 4 false [] []) fork_end /\ p_main fork_end = Gone true /\ p_flag fork_end = true /\
  (forall id msg, answered (g_world honest_setting id) msg) /\
  (forall id tr msg rs, heard (g_world honest_setting id) tr msg rs -> Forall (decidable_for rs) name_check /\ Forall (decidable_for rs) no_check /\ Forall (decidable_for rs) less_check /\
     exists y, found rs (k_root ok_guard) (k_turns ok_guard) y) /\
  fork_text = lit "let host = ""h"";" ++ [10] ++ lit "request look`GET http://{host}/`[status == 200]" ++ [10] ++
    lit "request take`GET http://{host}/t`[body == ""no""]" ++ [10] ++ lit "request put`GET http://{host}/p`[body < ""a""]" ++ [10] ++ lit "test t { if (look().body == ""ok"") { take() } else { put() } }" /\
  events_of (Tester 1) (p_log fork_end) = [Sent shop_message; Sent t_message; Printed look_report; Printed t_report; Sent shop_message; Sent p_message; Printed look_report; Printed p_report].
Proof.
  pose proof chain_example as X. destruct shop_example as ((V & _) & _).
  split; [exact (proj1 X)|]. split. { split; [exact V|split; [apply new_named; vm_compute; reflexivity|vm_compute; intuition discriminate]]. } split. { split; [exact V|split; [apply new_named; vm_compute; reflexivity|vm_compute; intuition discriminate]]. }
  split. { repeat constructor; vm_compute; intuition discriminate. } split; [exact (proj1 (proj2 (proj2 (proj2 X))))|].
  split. { constructor; [|constructor]. apply (text_check (lit "==") KEq (lit "no")); [cbn; tauto|vm_compute; intuition discriminate|repeat constructor]. }
  split. { constructor; [|constructor]. apply (text_check (lit "<") KLt (lit "a")); [cbn; tauto|vm_compute; intuition discriminate|repeat constructor]. }
  split. { apply (text_check (lit "==") KEq (lit "ok")); [cbn; tauto|vm_compute; intuition discriminate|repeat constructor]. }
  split; [apply new_named; vm_compute; reflexivity|].
  split. { replace shop_message with (substitute (var_text (e_host online) (with_vars shop_vars ctx_new)) shop_template) by (vm_compute; reflexivity). apply filled_by. }
  split. { replace t_message with (substitute (var_text (e_host online) (with_vars shop_vars ctx_new)) (lit "GET http://{host}/t")) by (vm_compute; reflexivity). apply filled_by. }
  split. { replace p_message with (substitute (var_text (e_host online) (with_vars shop_vars ctx_new)) (lit "GET http://{host}/p")) by (vm_compute; reflexivity). apply filled_by. }
  split; [vm_compute; reflexivity|]. split; [apply play_goes|]. split; [vm_compute; reflexivity|]. split; [vm_compute; reflexivity|]. split; [intros id msg; exact (honest_answers msg)|]. split; [|split; vm_compute; reflexivity].
  intros id tr msg rs H. apply honest_heard in H. subst rs.
  assert (D : forall c, k_root c <> lit "json" -> decidable_for (honest_response tr) c) by (intros c N E; contradiction).
  split; [constructor; [apply D; vm_compute; discriminate|constructor]|]. split; [constructor; [apply D; vm_compute; discriminate|constructor]|]. split; [constructor; [apply D; vm_compute; discriminate|constructor]|].
  eexists. eexists. split; [apply po_body|constructor].
Qed.
