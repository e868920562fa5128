(** C125 *)
From Verif Require Import EvalExamples ReportExamples AssertExamples VerdictProofs VerdictExamples SpecVerdict ProcessExamples.
Open Scope N_scope.

(** C125.  A report says PASS exactly if the assertions are true of what the server sent *)

Theorem C125_call : forall w n args s vs s1 template asserts msg rq rs t er m, in_order w args s vs s1 -> mget n (c_reqs (s_ctx s1)) = Some (template, asserts) -> message_of w (s_ctx s1) template msg ->
  client_send (e_prepare w) (e_net w (s_trace s1) msg) msg = Ok (rq, rs, t, er) -> to_map (e_host w) rs = Ok m -> Forall (checkable rs) asserts ->
  exists v r tr, eval_expr w (ECall n args) s = (Ok v, St (Ctx (c_vars (s_ctx s1)) (c_reqs (s_ctx s1)) (c_recs (s_ctx s1) ++ [r])) tr) /\
    r_name r = n /\ r_response r = rs /\ judged_rightly r asserts.
Proof. exact call_judged. Qed.
Print Assumptions C125_call.
Theorem C125_bytes : forall p x msg rq rs t er d line version status reason hs body, client_send p x msg = Ok (rq, rs, t, er) ->
  x_connect x = inl d -> x_write x = None -> x_reply x = Reader (opening line hs ++ utf8 body) None ->
  status_line line version status reason -> Forall field hs -> scalars body -> rs = Response version status reason hs body /\ er = [].
Proof. exact reply_heard. Qed.
Print Assumptions C125_bytes.
Theorem C125_run : forall iter w root name threads duration number record pod d g src s1 body p, loads w root src s1 -> mget name (s_tests src) = Some body -> threads <> 0 ->
  goes g (launch iter w root (Some name) threads duration number record pod d) p -> p_main p = Gone true ->
  exists bss, length bss = N.to_nat threads /\
  forall id bs, nth_error bss (N.to_nat id) = Some bs ->
    done_with (g_world g id) body (s_ctx s1) (share duration number threads) (negb (p_flag p)) bs (events_of (Tester id) (p_log p)) /\
    Forall (fun r => In (Printed (show_record r ++ [10])) (events_of (Tester id) (p_log p)) /\
      exists template asserts, mget (r_name r) (s_requests src) = Some (template, asserts) /\
        (Forall (checkable (r_response r)) asserts -> judged_rightly r asserts)) (List.concat bs).
Proof. exact run_judged. Qed.
Print Assumptions C125_run.
Example C125_example : Forall (checkable stock_response) good_asserts /\ Forall (checkable stock_response) bad_asserts /\
  Forall (true_of stock_response) good_asserts /\ ~ Forall (true_of stock_response) bad_asserts.
Proof. exact stock_checked. Qed.

Example C125_run_example : (exists src s1 body m1 m2, loads shelf (at_file stock_text) src s1 /\ mget (lit "t") (s_tests src) = Some body /\
    mget (lit "good") (s_requests src) = Some (m1, good_asserts) /\ mget (lit "bad") (s_requests src) = Some (m2, bad_asserts)) /\
  goes stock_setting (launch (fun l => l) shelf (at_file stock_text) (Some (lit "t")) 2 None 4 false [] []) stock_end /\ p_main stock_end = Gone true /\
  verdicts (events_of (Tester 1) (p_log stock_end)) = [good_report; bad_report; good_report; bad_report].
Proof. exact stock_run. Qed.

