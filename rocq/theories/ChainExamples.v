(** A concrete suite whose second request has what the first response said. *)
From Verif Require Import TextProofs JsonProofs FloatLiteral EvalExamples ValidProofs AssertProofs AssertExamples SuiteProofs VerdictProofs VerdictExamples PrintsProofs PrintsExamples ChainProofs SpecProcess SpecChain ProcessExamples.
Open Scope N_scope.

Lemma shelf_client tr msg : exists rq t, client_send (e_prepare shelf) (e_net shelf tr msg) msg = Ok (rq, stock_response, t, []).
Proof.
  assert (E : forall p, exists rq t, client_send p (e_net shelf [] []) msg = Ok (rq, stock_response, t, [])).
  { intros p. unfold client_send. destruct (request_from p msg) as [q c]. vm_compute. eauto. }
  apply E.
Qed.
Lemma shelf_answers msg : answered shelf msg.
Proof.
  intros tr. destruct (shelf_client tr msg) as (rq & t & E). exists rq, stock_response, t, (@nil N). destruct (to_map (e_host shelf) stock_response) as [m|x| |] eqn:M; [eauto|vm_compute in M; discriminate M..].
Qed.
Lemma shelf_heard tr msg rs : heard shelf tr msg rs -> rs = stock_response.
Proof. intros (rq & t & er & E). destruct (shelf_client tr msg) as (rq' & t' & E'). rewrite E in E'. now injection E' as _ <- _ _. Qed.
Definition name_check : list check := [Check (lit "status == 200") (lit "status") [] KEq (lit "==") (EInt 200)].
Definition path_turns : list SpecAssert.turn := [Field (lit "items"); SpecAssert.Nth 1; Key (lit "name")].
Definition chain_text : str := chain_suite shop_vars (lit "look") shop_template shop_checks (lit "take") (lit "GET http://{host}/{what}") name_check (lit "t") (lit "what") (lit ".json.items[1][""name""]").
Definition take_message : str := lit "GET http://h/b".
Definition take_report : str := lit "=== TEST  take" ++ [10] ++ lit "status == 200 => 200 == 200 => true" ++ [10] ++ lit "--- PASS  take (10ns)" ++ [10].
Definition chain_end : process := play stock_setting ([Onward; Onward; Onward] ++ taking_turns 20) (launch (fun l => l) shelf (at_file chain_text) (Some (lit "t")) 2 None 4 false [] []).
Lemma chain_example : definable shop_vars (lit "look") shop_template /\ definable shop_vars (lit "take") (lit "GET http://{host}/{what}") /\ Forall well_written shop_checks /\ Forall well_written name_check /\
  new_name (lit "t") /\ new_name (lit "what") /\
  Forall2 turn_written (Field (lit "json") :: path_turns) [lit ".json"; lit ".items"; lit "[1]"; lit "[""name""]"] /\
  filled shop_vars shop_template shop_message /\ (forall v, filled (shop_vars ++ [(lit "what", v)]) shop_template shop_message) /\
  read_node (fst (at_file chain_text)) (snd (at_file chain_text)) = Some chain_text /\
  goes stock_setting (launch (fun l => l) shelf (at_file chain_text) (Some (lit "t")) 2 None 4 false [] []) chain_end /\ p_main chain_end = Gone true /\ p_flag chain_end = true /\
  (forall id msg, answered (g_world stock_setting id) msg) /\
  (forall id tr msg rs, heard (g_world stock_setting id) tr msg rs -> Forall (decidable_for rs) shop_checks /\ Forall (decidable_for rs) name_check /\
     exists y u, found rs (lit "json") path_turns y /\ part_text y u) /\
  chain_text = lit "let host = ""h"";" ++ [10] ++ lit "request look`GET http://{host}/`[json[""items""][01].name != ""c"", status == 200, json.items[2] >= 1.50]" ++ [10] ++
    lit "request take`GET http://{host}/{what}`[status == 200]" ++ [10] ++ lit "test t { let what = look().json.items[1][""name""]; take() }" /\
  events_of (Tester 1) (p_log chain_end) = [Sent shop_message; Sent take_message; Printed shop_report; Printed take_report; Sent shop_message; Sent take_message; Printed shop_report; Printed take_report].
Proof.
  split; [exact (proj1 shop_example)|]. split. { split; [exact (proj1 (proj1 shop_example))|split; [apply new_named; vm_compute; reflexivity|vm_compute; intuition discriminate]]. }
  split; [exact shop_written|]. split. { apply Forall_forall. intros c [<-|[]]. pose proof shop_written as W. rewrite Forall_forall in W. apply W. cbn. auto. }
  split; [apply new_named; vm_compute; reflexivity|]. split; [apply new_named; vm_compute; reflexivity|].
  split. { constructor; [apply (tw_field (lit "json")); apply new_named; vm_compute; reflexivity|]. constructor; [apply (tw_field (lit "items")); apply new_named; vm_compute; reflexivity|].
    constructor; [apply (tw_nth 1 (lit "1")); [discriminate|repeat constructor; unfold digit; vm_compute; intuition discriminate|reflexivity|reflexivity]|].
    constructor; [apply (tw_key (lit "name")); vm_compute; intuition discriminate|constructor]. }
  split; [exact (proj1 (proj2 (proj2 (proj2 shop_example))))|]. split. { intros v. replace shop_message with (substitute (var_text (e_host online) (with_vars (shop_vars ++ [(lit "what", v)]) ctx_new)) shop_template) by reflexivity. apply filled_by. }
  split; [vm_compute; reflexivity|]. split; [apply play_goes|]. split; [vm_compute; reflexivity|]. split; [vm_compute; reflexivity|]. split; [intros id msg; exact (shelf_answers msg)|]. split; [|split; vm_compute; reflexivity].
  intros id tr msg rs H. apply shelf_heard in H. subst rs. destruct shelf_document as (d & J & L & _).
  split; [apply Forall_forall; intros c _ _; left; exists d; exact J|]. split; [apply Forall_forall; intros c _ _; left; exists d; exact J|].
  exists (JStr (lit "b")), (lit "b"). split; [|constructor]. exists d. split; [now constructor|]. exact L.
Qed.
Lemma missing_example : (forall tr msg rs, heard shelf tr msg rs -> (exists d, SpecAssert.part_of rs (lit "json") d) /\ forall y, ~ found rs (lit "json") [Field (lit "items"); SpecAssert.Nth 2] y) /\
  fst (eval_block shelf [ELet (lit "what") (fold_left access [Field (lit "json"); Field (lit "items"); SpecAssert.Nth 2] (ECall (lit "look") [])); EIdent (lit "what")]
    (St (Ctx [] [(lit "look", (shop_message, []))] []) [])) = Ok VNull /\
  (exists e, fst (eval_block shelf [ELet (lit "what") (fold_left access [Field (lit "json"); Field (lit "items"); SpecAssert.Nth 2; Key (lit "name")] (ECall (lit "look") [])); EIdent (lit "what")]
    (St (Ctx [] [(lit "look", (shop_message, []))] []) [])) = Err e).
Proof.
  split; [|split; [vm_compute; reflexivity|eexists; vm_compute; reflexivity]]. intros tr msg rs H. apply shelf_heard in H. subst rs. destruct shelf_document as (d & J & _ & _ & _ & N).
  split; [exists d; now constructor|]. intros y (d' & P & L).
  assert (T : response_text stock_response) by (destruct (shelf_client [] []) as (rq & t & E); exact (send_text _ _ _ _ _ _ _ E)).
  destruct (to_map (e_host shelf) stock_response) as [m|x| |] eqn:M; [|vm_compute in M; discriminate M..]. destruct (parts_denote _ _ _ T M) as [Q _]. destruct (Q _ _ P) as (v & G & D & _). clear Q.
  assert (V : mget (lit "items") (match v with VMap o => o | _ => [] end) = Some (VArr [VInt 7; VMap [(lit "name", VStr (lit "b"))]])).
  { vm_compute in M. injection M as <-. vm_compute in G. injection G as <-. vm_compute. reflexivity. }
  inversion L as [|ms k z ps x Ld Lz| | |]; subst. assert (X : exists o, v = VMap o) by (inversion D; eauto). destruct X as [o ->].
  destruct (member_denotes ms o (lit "items") D) as [(z' & u & Ld' & G' & Dz)|[Nn _]]; [|exact (Nn _ Ld)]. assert (z = z') by (eapply last_unique; eauto). subst z'. rewrite V in G'. injection G' as <-.
  inversion Dz as [| | | | | |ys vs F|]; subst. inversion F as [|? ? ? ? _ F1]; subst. inversion F1 as [|? ? ? ? _ F2]; subst. inversion F2; subst. inversion Lz as [| | |? ? ? ? ? Y|]; subst. discriminate Y.
Qed.
