(** C126 *)
From Verif Require Import EvalExamples AssertExamples VerdictExamples PrintsProofs PrintsExamples SpecProcess SpecPrints ProcessExamples.
Open Scope N_scope.

(** C126.  What a suite of a request with assertions prints, from its text and what the server sends *)

Theorem C126_run : forall iter w root threads duration number record pod d g vars r template cs t msg p, definable vars r template -> new_name t -> Forall well_written cs -> filled vars template msg -> read_node (fst root) (snd root) = Some (check_suite vars r template cs t) -> threads <> 0 ->
  goes g (launch iter w root (Some t) threads duration number record pod d) p -> p_main p = Gone true ->
  (forall id, answered (g_world g id) msg) -> (forall id tr rs, heard (g_world g id) tr msg rs -> Forall (decidable_for rs) cs) ->
  forall id, id < threads -> exists rounds, events_of (Tester id) (p_log p) = rounds_events msg rounds /\ rounds_reported (g_world g id) msg r cs rounds /\
    N.of_nat (length rounds) <= share duration number threads /\ (p_flag p = true -> N.of_nat (length rounds) = share duration number threads).
Proof. exact suite_prints. Qed.
Print Assumptions C126_run.
Theorem C126_bytes : forall w tr msg r d line version status reason hs body, heard w tr msg r ->
  x_connect (e_net w tr msg) = inl d -> x_write (e_net w tr msg) = None -> x_reply (e_net w tr msg) = Reader (opening line hs ++ utf8 body) None ->
  status_line line version status reason -> Forall field hs -> scalars body -> r = Response version status reason hs body.
Proof. exact heard_bytes. Qed.
Print Assumptions C126_bytes.
Example C126_example : definable shop_vars (lit "look") shop_template /\ new_name (lit "t") /\ Forall well_written shop_checks /\ filled shop_vars shop_template shop_message /\
  read_node (fst (at_file shop_suite)) (snd (at_file shop_suite)) = Some (check_suite shop_vars (lit "look") shop_template shop_checks (lit "t")) /\
  goes stock_setting (launch (fun l => l) shelf (at_file shop_suite) (Some (lit "t")) 2 None 4 false [] []) shop_end /\ p_main shop_end = Gone true /\ p_flag shop_end = true /\
  (forall id, answered (g_world stock_setting id) shop_message) /\
  (forall id tr rs, heard (g_world stock_setting id) tr shop_message rs -> rs = stock_response /\ Forall (decidable_for rs) shop_checks) /\
  shop_suite = lit "let host = ""h"";" ++ [10] ++ lit "request look`GET http://{host}/`[json[""items""][01].name != ""c"", status == 200, json.items[2] >= 1.50]" ++ [10] ++ lit "test t { look() }" /\
  events_of (Tester 1) (p_log shop_end) = [Sent shop_message; Printed shop_report; Sent shop_message; Printed shop_report].
Proof. exact shop_example. Qed.

