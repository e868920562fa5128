(** C123 *)
From Verif Require Import EvalExamples ArrivesProofs SuiteProofs SuiteExamples SpecProcess SpecArrives ProcessExamples.
Open Scope N_scope.

(** C123.  From the text of a suite to the bytes on the connection *)

Theorem C123_parts : forall w c a b me at_ address ve indent gap hts hs bts body, blank a -> blank b -> spaces indent -> spaces gap ->
  message_of w c at_ address -> Forall2 (header_filled w c) hts hs -> Forall2 (message_of w c) bts body ->
  one_line_holes (a ++ written me at_ ve indent gap hts bts ++ b) ->
  message_of w c (a ++ written me at_ ve indent gap hts bts ++ b) (a ++ written me address ve indent gap hs body ++ b).
Proof. exact written_filled. Qed.
Print Assumptions C123_parts.
Theorem C123_call : forall w enc n args s vs s1 a b me at_ address ve indent gap hts hs bts body asserts ct, in_order w args s vs s1 -> mget n (c_reqs (s_ctx s1)) = Some (a ++ written me at_ ve indent gap hts bts ++ b, asserts) ->
  blank a -> blank b -> spaces indent -> spaces gap -> one_line_holes (a ++ written me at_ ve indent gap hts bts ++ b) ->
  message_of w (s_ctx s1) at_ address -> Forall2 (header_filled w (s_ctx s1)) hts hs -> Forall2 (message_of w (s_ctx s1)) bts body ->
  address <> [] -> Forall (fun c => ~ ws c) address -> Forall plain_header hs -> plain_body body -> content_type hs ct ->
  ct <> Some (lit "application/x-www-form-urlencoded") -> ct <> Some (lit "multipart/form-data") ->
  let msg := a ++ written me address ve indent gap hs body ++ b in scalars msg ->
  exists o recs pr, sent pr = 0%nat /\ (length recs <= 1)%nat /\
    eval_expr w (ECall n args) s =
      (o, St (Ctx (c_vars (s_ctx s1)) (c_reqs (s_ctx s1)) (c_recs (s_ctx s1) ++ recs)) (s_trace s1 ++ Sent msg :: pr)) /\
    Forall (fun r => r_request r = Request me (url_from address) ve hs (List.concat body)) recs /\
    request_bytes enc (fst (request_from (e_prepare w) msg)) (snd (request_from (e_prepare w) msg)) =
      utf8 (head_sent me (u_path (url_from address)) ve hs ++ List.concat body).
Proof. exact call_arrives. Qed.
Print Assumptions C123_call.
Theorem C123_bytes : forall vars prepare enc a b me at_ address ve indent gap hts hs bts body ct, blank a -> blank b -> spaces indent -> spaces gap -> one_line_holes (a ++ written me at_ ve indent gap hts bts ++ b) ->
  filled vars at_ address -> Forall2 (fun t h => filled vars (fst t) (fst h) /\ filled vars (snd t) (snd h)) hts hs -> Forall2 (filled vars) bts body ->
  address <> [] -> Forall (fun c => ~ ws c) address -> Forall plain_header hs -> plain_body body -> content_type hs ct ->
  ct <> Some (lit "application/x-www-form-urlencoded") -> ct <> Some (lit "multipart/form-data") ->
  let msg := a ++ written me address ve indent gap hs body ++ b in scalars msg ->
  filled vars (a ++ written me at_ ve indent gap hts bts ++ b) msg /\
  fst (request_from prepare msg) = Request me (url_from address) ve hs (List.concat body) /\
  request_bytes enc (fst (request_from prepare msg)) (snd (request_from prepare msg)) =
    utf8 (head_sent me (u_path (url_from address)) ve hs ++ List.concat body).
Proof. exact suite_bytes. Qed.
Print Assumptions C123_bytes.
Theorem C123_eval : forall w vars r template msg, definable vars r template -> filled vars template msg ->
  exists o s, script w (definitions vars r template ++ r ++ lit "()") = Some (o, s) /\ messages (s_trace s) = [msg].
Proof. exact suite_eval. Qed.
Print Assumptions C123_eval.
Theorem C123_run : forall iter w root threads duration number record pod d g vars r template t msg p, definable vars r template -> new_name t -> filled vars template msg -> read_node (fst root) (snd root) = Some (test_text vars r template t) -> threads <> 0 ->
  goes g (launch iter w root (Some t) threads duration number record pod d) p ->
  events_of Main (p_log p) = [] /\
  (forall id, threads <= id -> events_of (Tester id) (p_log p) = []) /\
  (forall id, Forall (eq msg) (messages (events_of (Tester id) (p_log p)))) /\
  (p_main p = Gone true -> p_flag p = true -> (forall id, answered (g_world g id) msg) ->
     forall id, id < threads -> messages (events_of (Tester id) (p_log p)) = repeat msg (N.to_nat (share duration number threads))).
Proof. exact suite_run. Qed.
Print Assumptions C123_run.
Example C123_example : definable demo_vars (lit "post") demo_template /\ one_line_holes demo_template /\ filled demo_vars demo_template demo_message /\
  filled demo_vars (lit "http://{host}/a/{ id }") (lit "http://h:81/a/8") /\ filled demo_vars (lit "v{id}") (lit "v8") /\
  Forall2 (filled demo_vars) demo_body [lit "{"; lit "  ""n"": 8, ""m"": ""null"""; lit "}"] /\
  (exists o s, script online (definitions demo_vars (lit "post") demo_template ++ lit "post()") = Some (Ok o, s) /\ messages (s_trace s) = [demo_message]) /\
  request_bytes (fun _ => []) (fst (request_from (fun _ => true) demo_message)) (snd (request_from (fun _ => true) demo_message)) =
    utf8 (lit "POST /a/8 HTTP/1.1" ++ [13; 10] ++ lit "X-Id: v8" ++ [13; 10; 13; 10] ++ lit "{  ""n"": 8, ""m"": ""null""}").
Proof. exact suite_example. Qed.

Example C123_run_example : goes plain (launch (fun l => l) online demo_suite (Some (lit "t")) 2 None 5 false [] []) demo_end /\
  read_node (fst demo_suite) (snd demo_suite) = Some (test_text demo_vars (lit "post") demo_template (lit "t")) /\
  p_main demo_end = Gone true /\ p_flag demo_end = true /\ (forall id, answered (g_world plain id) demo_message) /\
  map (fun id => messages (events_of (Tester id) (p_log demo_end))) [0; 1; 2] = [[demo_message; demo_message]; [demo_message; demo_message]; []].
Proof. exact suite_run_example. Qed.

