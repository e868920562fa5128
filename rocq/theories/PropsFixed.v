(** C135 *)
From Verif Require Import EvalExamples PrintsExamples ChainExamples BranchExamples WholeExamples FixedProofs FixedExamples SpecProcess SpecBranch SpecFixed ProcessExamples.
Open Scope N_scope.

(** C135.  Suites whose tests do the same cannot be told apart by running them *)

Theorem C135_same : forall R iter iter' w root root' src src' s1 s1' name threads duration number record pod d g p, same_doings R -> loads w root src s1 -> loads w root' src' s1' -> s_trace s1' = s_trace s1 ->
  (forall t, name = Some t -> match mget t (s_tests src), mget t (s_tests src') with Some b, Some b' => R b (s_ctx s1) b' (s_ctx s1') | None, None => True | _, _ => False end) ->
  (name = None -> Forall2 (fun x x' => fst x' = fst x /\ R (snd x) (s_ctx s1) (snd x') (s_ctx s1')) (iter (s_tests src)) (iter' (s_tests src'))) ->
  goes g (launch iter w root name threads duration number record pod d) p -> exists p', goes g (launch iter' w root' name threads duration number record pod d) p' /\ looks_like p p'.
Proof. exact same_run. Qed.
Print Assumptions C135_same.
Theorem C135_eval : forall texts texts' D w es s s', Forall (leaves texts texts' D) es -> has_texts texts (s_ctx s) -> has_texts texts' (s_ctx s') -> agree_outside D (s_ctx s) (s_ctx s') ->
  same_wording texts texts' D (c_reqs (s_ctx s)) (c_reqs (s_ctx s')) -> c_recs (s_ctx s') = c_recs (s_ctx s) -> s_trace s' = s_trace s ->
  exists o t t', eval_block w es s = (o, t) /\ eval_block w es s' = (o, t') /\ s_trace t' = s_trace t /\ c_recs (s_ctx t') = c_recs (s_ctx t) /\ agree_outside D (s_ctx t) (s_ctx t').
Proof. exact worded_eval. Qed.
Print Assumptions C135_eval.
Theorem C135_run : forall texts texts' D iter iter' w root root' text text' src src' defs defs' rest v vs v' vs' name threads duration number record pod d g p, read_node (fst root) (snd root) = Some text -> read_node (fst root') (snd root') = Some text' -> parse text = Ok src -> parse text' = Ok src' ->
  s_exprs src = defs ++ rest -> s_exprs src' = defs' ++ rest ->
  eval_block w defs (St (Ctx [] (mextend [] (s_requests src)) []) []) = (Ok v, St (Ctx vs (mextend [] (s_requests src)) []) []) ->
  eval_block w defs' (St (Ctx [] (mextend [] (s_requests src')) []) []) = (Ok v', St (Ctx vs' (mextend [] (s_requests src')) []) []) ->
  has_texts texts (Ctx vs [] []) -> has_texts texts' (Ctx vs' [] []) -> agree_outside D (Ctx vs [] []) (Ctx vs' [] []) ->
  same_wording texts texts' D (s_requests src) (s_requests src') -> Forall (leaves texts texts' D) rest ->
  (forall t, mget t (s_tests src') = mget t (s_tests src)) -> (forall t b, mget t (s_tests src) = Some b -> Forall (leaves texts texts' D) b) ->
  (name = None -> iter' (s_tests src') = iter (s_tests src) /\ forall t b, In (t, b) (iter (s_tests src)) -> mget t (s_tests src) = Some b) ->
  goes g (launch iter w root name threads duration number record pod d) p -> exists p', goes g (launch iter' w root' name threads duration number record pod d) p' /\ looks_like p p'.
Proof. exact worded_run. Qed.
Print Assumptions C135_run.
Theorem C135_messages : forall iter iter' w root root' vars vars' ds ds' tests tests' name threads duration number record pod d g p, suite_fits vars ds tests -> suite_fits vars' ds' tests' -> Forall2 same_demand ds ds' -> Forall2 (fun t t' => fst t' = fst t /\ Forall2 same_demand (snd t) (snd t')) tests tests' ->
  read_node (fst root) (snd root) = Some (whole_suite vars ds tests) -> read_node (fst root') (snd root') = Some (whole_suite vars' ds' tests') ->
  (forall src src', parse (whole_suite vars ds tests) = Ok src -> parse (whole_suite vars' ds' tests') = Ok src' -> name = None -> iter' (s_tests src') = iter (s_tests src) /\ Permutation (iter (s_tests src)) (s_tests src)) ->
  goes g (launch iter w root name threads duration number record pod d) p -> exists p', goes g (launch iter' w root' name threads duration number record pod d) p' /\ looks_like p p'.
Proof. exact messages_run. Qed.
Print Assumptions C135_messages.
Example C135_same_example : exists R src src' s1 s1', same_doings R /\ loads online (at_file brief_text) src s1 /\ loads online (at_file wordy_text) src' s1' /\ s_trace s1' = s_trace s1 /\
  (match mget (lit "t") (s_tests src), mget (lit "t") (s_tests src') with Some b, Some b' => b <> b' /\ R b (s_ctx s1) b' (s_ctx s1') | _, _ => False end) /\
  goes quiet (run_of brief_text) (done_of brief_text) /\ p_main (done_of brief_text) = Gone true /\ p_log (done_of brief_text) = [(Tester 0, Printed (lit "a"))].
Proof. exact same_example. Qed.

Example C135_run_example : exists src src' defs v vs v' vs', parse far_text = Ok src /\ parse near_text = Ok src' /\ s_exprs src = defs ++ [] /\ s_exprs src' = defs ++ [] /\
  eval_block online defs (St (Ctx [] (mextend [] (s_requests src)) []) []) = (Ok v, St (Ctx vs (mextend [] (s_requests src)) []) []) /\
  eval_block online defs (St (Ctx [] (mextend [] (s_requests src')) []) []) = (Ok v', St (Ctx vs' (mextend [] (s_requests src')) []) []) /\
  has_texts host_texts (Ctx vs [] []) /\ has_texts host_texts (Ctx vs' [] []) /\ agree_outside [] (Ctx vs [] []) (Ctx vs' [] []) /\
  same_wording host_texts host_texts [] (s_requests src) (s_requests src') /\ (forall t, mget t (s_tests src') = mget t (s_tests src)) /\
  (forall t b, mget t (s_tests src) = Some b -> Forall (leaves host_texts host_texts []) b) /\
  goes quiet (run_of far_text) (done_of far_text) /\ p_main (done_of far_text) = Gone true /\ hd_error (p_log (done_of far_text)) = Some (Tester 0, Sent (lit "GET http://h:80/1")) /\
  goes quiet (run_of near_text) (done_of near_text) /\ p_log (done_of near_text) = p_log (done_of far_text).
Proof. exact worded_example. Qed.

Example C135_messages_example : suite_fits shop_vars shop_demands shop_tests /\ suite_fits base_vars [look_again; take_again] again_tests /\
  Forall2 same_demand shop_demands [look_again; take_again] /\ Forall2 (fun t t' => fst t' = fst t /\ Forall2 same_demand (snd t) (snd t')) shop_tests again_tests /\
  read_node (fst (at_file whole_text)) (snd (at_file whole_text)) = Some (whole_suite shop_vars shop_demands shop_tests) /\
  read_node (fst (at_file again_text)) (snd (at_file again_text)) = Some (whole_suite base_vars [look_again; take_again] again_tests) /\
  (forall src src', parse (whole_suite shop_vars shop_demands shop_tests) = Ok src -> parse (whole_suite base_vars [look_again; take_again] again_tests) = Ok src' ->
    rev (s_tests src') = rev (s_tests src) /\ Permutation (rev (s_tests src)) (s_tests src)) /\
  again_text = lit "let base = ""http://h"";" ++ [10] ++ lit "let page = ""t"";" ++ [10] ++ lit "let idle = ""x"";" ++ [10] ++
    lit "request look`GET {base}/`[status == 200]" ++ [10] ++ lit "request take`GET {base}/{page}`[body == ""no""]" ++ [10] ++
    lit "test one { take(); look(); take(); }" ++ [10] ++ lit "test idle { }" ++ [10] ++ lit "test two { look(); }" ++ [10] /\
  goes honest_setting named_launch named_finish /\ p_main named_finish = Gone true.
Proof. exact messages_example. Qed.

Theorem C135_setting_refuted : exists src src' s1 s1', loads online (at_file set_text) src s1 /\ loads online (at_file fast_text) src' s1' /\ has_texts [(lit "host", lit "h")] (s_ctx s1) /\ has_texts [(lit "host", lit "h")] (s_ctx s1') /\
  agree_outside [] (s_ctx s1) (s_ctx s1') /\ same_wording [(lit "host", lit "h")] [(lit "host", lit "h")] [] (s_requests src) (s_requests src') /\ s_tests src' = s_tests src /\
  exists p p', goes quiet (run_of set_text) p /\ p_main p = Gone true /\ p_flag p = true /\ goes quiet (run_of fast_text) p' /\ p_main p' = Gone true /\ p_flag p' = true /\
  hd_error (p_log p) = Some (Tester 0, Sent (lit "GET http://x/")) /\ hd_error (p_log p') = Some (Tester 0, Sent (lit "GET http://h/")).
Proof. exact setting_matters. Qed.
Print Assumptions C135_setting_refuted.
Theorem C135_braces_refuted : exists text text' p p', text = lit "let a = ""{b}""; let b = ""x""; request r `GET http://{a}/` test t { r() }" /\ text' = lit "let a = ""{b}""; let b = ""x""; request r `GET http://{b}/` test t { r() }" /\
  goes quiet (run_of text) p /\ p_main p = Gone true /\ p_flag p = true /\ goes quiet (run_of text') p' /\ p_main p' = Gone true /\ p_flag p' = true /\
  hd_error (p_log p) = Some (Tester 0, Sent (lit "GET http://{b}/")) /\ hd_error (p_log p') = Some (Tester 0, Sent (lit "GET http://x/")).
Proof. exact braces_matter. Qed.
Print Assumptions C135_braces_refuted.
