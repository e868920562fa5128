(** C116 *)
From Verif Require Import EvalExamples ReportExamples AssertProofs AssertExamples SpecHistory SpecAssert.
Open Scope N_scope.

(** C116.  An assertion is reported true exactly if it is true of the response *)

Theorem C116_run : forall w es s o s', eval_block w es s = (o, s') -> c_recs (s_ctx s) = [] ->
  forall r, In r (c_recs (s_ctx s')) -> exists template asserts, mget (r_name r) (c_reqs (s_ctx s)) = Some (template, asserts) /\
    ((forall e, In e asserts -> let_names e = []) -> Forall2 (fun e a => says (r_response r) e (a_result a)) (filter comparison_expr asserts) (r_asserts r)).
Proof. exact assertions_run. Qed.
Print Assumptions C116_run.
Theorem C116_exchange : forall w reqs tr r msg pr template asserts, exchange w reqs tr r msg pr -> mget (r_name r) reqs = Some (template, asserts) ->
  (forall e, In e asserts -> let_names e = []) ->
  Forall2 (fun e a => says (r_response r) e (a_result a)) (filter comparison_expr asserts) (r_asserts r).
Proof. exact assertions_say. Qed.
Print Assumptions C116_exchange.
Example C116_example : exists src, parse shelf_test = Ok src /\
  (forall n template asserts e, mget n (s_requests src) = Some (template, asserts) -> In e asserts -> let_names e = []) /\
  exists v s, eval_block shelf (s_exprs src) (St (ctx_extend ctx_new (s_requests src)) []) = (Ok v, s) /\
    map (fun r => map a_result (r_asserts r)) (c_recs (s_ctx s)) = [[true; true; true; true; true; false; false; false]].
Proof. exact shelf_example. Qed.

Example C116_document : exists d, json shelf_text d /\ located d [Field (lit "items"); Nth 1; Key (lit "name")] (JStr (lit "b")) /\
  ranks (JStr (lit "b")) (EStr (lit "a")) Gt /\ ~ agrees (JStr (lit "b")) (EStr (lit "c")) /\ forall x, ~ located d [Field (lit "items"); Nth 2] x.
Proof. exact shelf_document. Qed.

Example C116_page : map rs_body (map r_response (recs_of (script paged page_test))) = [page_text] /\ (forall r, rs_body r = page_text -> documented r) /\
  asserts_of (script paged page_test) = [[(lit "json.n == 1", lit "null", lit "1", false); (lit "json != ""c""", lit "null", lit "c", true); (lit "json[0].n < 3", lit "null", lit "3", false); (lit "status == 200", lit "200", lit "200", true)]].
Proof. exact page_example. Qed.

(** numbers below zero cannot be asserted about *)

Theorem C116_negative_refuted : exists w text, map rs_body (map r_response (recs_of (script w text))) = [lit "{""n"":-5}"] /\
  asserts_of (script w text) = [[(lit "json.n == -5", lit "null", lit "-5", false); (lit "json.n < 0", lit "null", lit "0", false); (lit "json.n != -5", lit "null", lit "-5", true)]].
Proof. exact negative_lost. Qed.
Print Assumptions C116_negative_refuted.
