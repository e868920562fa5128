(** What a concrete suite prints. *)
From Verif Require Import TextProofs JsonProofs FloatLiteral EvalExamples AssertProofs AssertExamples SuiteProofs VerdictExamples PrintsProofs SpecProcess SpecPrints ProcessExamples.
Open Scope N_scope.

Definition shop_half : f64 := match parse_f64 (lit "1.50") with Some f => f | None => S754_nan end.
Definition shop_checks : list check :=
  [Check (lit "json[""items""][01].name != ""c""") (lit "json") [Key (lit "items"); SpecAssert.Nth 1; Field (lit "name")] KNe (lit "!=") (EStr (lit "c"));
   Check (lit "status == 200") (lit "status") [] KEq (lit "==") (EInt 200);
   Check (lit "json.items[2] >= 1.50") (lit "json") [Field (lit "items"); SpecAssert.Nth 2] KGe (lit ">=") (EFloat shop_half)].
Definition shop_vars : list (str * str) := [(lit "host", lit "h")].
Definition shop_template : str := lit "GET http://{host}/".
Definition shop_message : str := lit "GET http://h/".
Definition shop_suite : str := check_suite shop_vars (lit "look") shop_template shop_checks (lit "t").
Definition shop_end : process := play stock_setting ([Onward; Onward; Onward] ++ taking_turns 20) (launch (fun l => l) shelf (at_file shop_suite) (Some (lit "t")) 2 None 4 false [] []).
Definition shop_report : str := lit "=== TEST  look" ++ [10] ++ lit "json[""items""][1].name != ""c"" => b != c => true" ++ [10] ++ lit "status == 200 => 200 == 200 => true" ++ [10] ++
  lit "json.items[2] >= 1.5 => null >= 1.5 => false" ++ [10] ++ lit "--- FAIL  look (10ns)" ++ [10].
Lemma shop_written : Forall well_written shop_checks.
Proof.
  apply Forall_cons; [|apply Forall_cons; [|apply Forall_cons; [|apply Forall_nil]]].
  - apply (cw (lit "json") _ [lit "[""items""]"; lit "[01]"; lit ".name"] KNe (lit "!=") (EStr (lit "c")) (lit """c""")).
    + apply new_named; vm_compute; reflexivity.
    + constructor; [apply (tw_key (lit "items")); vm_compute; intuition discriminate|]. constructor; [apply (tw_nth 1 (lit "01")); [discriminate|repeat constructor; unfold digit; vm_compute; intuition discriminate|reflexivity|reflexivity]|].
      constructor; [apply (tw_field (lit "name")); apply new_named; vm_compute; reflexivity|constructor].
    + cbn; tauto.
    + apply (lw_str (lit "c")); [vm_compute; intuition discriminate|repeat constructor].
  - apply (cw (lit "status") [] [] KEq (lit "==") (EInt 200) (lit "200")).
    + apply new_named; vm_compute; reflexivity.
    + constructor.
    + cbn; tauto.
    + apply (lw_int 200 (lit "200")); [discriminate|repeat constructor; unfold digit; vm_compute; intuition discriminate|reflexivity|reflexivity].
  - apply (cw (lit "json") _ [lit ".items"; lit "[2]"] KGe (lit ">=") (EFloat shop_half) (lit "1.50")).
    + apply new_named; vm_compute; reflexivity.
    + constructor; [apply (tw_field (lit "items")); apply new_named; vm_compute; reflexivity|].
      constructor; [apply (tw_nth 2 (lit "2")); [discriminate|repeat constructor; unfold digit; vm_compute; intuition discriminate|reflexivity|reflexivity]|constructor].
    + cbn; tauto.
    + apply (lw_float shop_half 49 (lit ".50")); [apply parse_f64_iff; vm_compute; reflexivity|unfold digit; vm_compute; intuition discriminate].
Qed.
Lemma shop_heard id tr rs : heard (g_world stock_setting id) tr shop_message rs -> rs = stock_response.
Proof.
  intros (rq & t & er & E). vm_compute in E. injection E as _ <- _ _. vm_compute. reflexivity.
Qed.
Lemma shop_example : definable shop_vars (lit "look") shop_template /\ new_name (lit "t") /\ Forall well_written shop_checks /\ filled shop_vars shop_template shop_message /\
  read_node (fst (at_file shop_suite)) (snd (at_file shop_suite)) = Some (check_suite shop_vars (lit "look") shop_template shop_checks (lit "t")) /\
  goes stock_setting (launch (fun l => l) shelf (at_file shop_suite) (Some (lit "t")) 2 None 4 false [] []) shop_end /\ p_main shop_end = Gone true /\ p_flag shop_end = true /\
  (forall id, answered (g_world stock_setting id) shop_message) /\
  (forall id tr rs, heard (g_world stock_setting id) tr shop_message rs -> rs = stock_response /\ Forall (decidable_for rs) shop_checks) /\
  shop_suite = lit "let host = ""h"";" ++ [10] ++ lit "request look`GET http://{host}/`[json[""items""][01].name != ""c"", status == 200, json.items[2] >= 1.50]" ++ [10] ++ lit "test t { look() }" /\
  events_of (Tester 1) (p_log shop_end) = [Sent shop_message; Printed shop_report; Sent shop_message; Printed shop_report].
Proof.
  split. { split; [|split].
    - apply Forall_cons; [|apply Forall_nil]. split; [apply new_named; vm_compute; reflexivity|vm_compute; intuition discriminate].
    - apply new_named; vm_compute; reflexivity.
    - vm_compute; intuition discriminate. }
  split; [apply new_named; vm_compute; reflexivity|]. split; [exact shop_written|].
  split. { replace shop_message with (substitute (var_text (e_host online) (with_vars shop_vars ctx_new)) shop_template) by (vm_compute; reflexivity). apply filled_by. }
  split; [vm_compute; reflexivity|]. split; [apply play_goes|]. split; [vm_compute; reflexivity|]. split; [vm_compute; reflexivity|]. split; [|split; [|split; vm_compute; reflexivity]].
  - intros id tr. destruct (client_send (e_prepare (g_world stock_setting id)) (e_net (g_world stock_setting id) tr shop_message) shop_message) as [[[[rq rs] t] e]|e| |] eqn:E;
      vm_compute in E; try discriminate E.
    exists rq, rs, t, e. destruct (to_map (e_host (g_world stock_setting id)) rs) as [m|x| |] eqn:M; injection E as <- <- <- <-; vm_compute in M; try discriminate M. eauto.
  - intros id tr rs H. apply shop_heard in H. subst rs. split; auto. destruct shelf_document as (d & J & _). apply Forall_forall. intros c _ _. left; exists d. exact J.
Qed.
