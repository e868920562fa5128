(** C105, C106 *)
From Verif Require Import SpecStack SpecSyntax DeepProofs EvalDepthProofs ValueExamples EvalExamples StackExamples.
Open Scope nat_scope.

(** C105.  How deep the calls of the parser nest *)

Theorem C105_same : forall n, forall src ts, fst (deep_top n src ts) = parse_top n src ts.
Proof. exact same_top. Qed.
Print Assumptions C105_same.
Theorem C105_bounded : forall n text, snd (deep_top n (Source [] [] []) (segment text)) <= (rise (segment text) + lets (segment text) + 1) * (12 + runs (segment text)).
Proof. exact parse_depth_brackets. Qed.
Print Assumptions C105_bounded.
Theorem C105_needed : forall text src, parse text = Ok src -> rise (segment text) <= S (parse_depth text).
Proof. exact parse_depth_needed. Qed.
Print Assumptions C105_needed.
Theorem C105_tokens : forall n text, snd (deep_top n (Source [] [] []) (segment text)) <= length (segment text).
Proof. exact parse_depth_tokens. Qed.
Print Assumptions C105_tokens.
Theorem C105_length : forall text, parse_depth text <= S (length text).
Proof. exact parse_depth_length. Qed.
Print Assumptions C105_length.
Theorem C105_open : forall k rest, k <= parse_depth (repeat 91%N k ++ rest).
Proof. exact brackets_depth. Qed.
Print Assumptions C105_open.
Example C105_example : parse_depth (lit "[[1],[2,[3]]]") = 4 /\ rise (segment (lit "[[1],[2,[3]]]")) = 3 /\ parse_depth (lit "1+2*3") = 3 /\ parse_depth (lit "!-!-x") = 5 /\
  parse_depth (lit "let a = let b = 1") = 3 /\ parse_depth (lit "[[[") = 4 /\ lets (segment (lit "let a = let b = 1")) = 2 /\ runs (segment (lit "1 + !-!-x")) = 4 /\
  exists src, parse (lit "[[1],[2,[3]]]") = Ok src.
Proof. exact parse_depths. Qed.

(** C106.  How deep the calls of the evaluator nest *)

Theorem C106_same : forall w es s, fst (deep_eval_block w es s) = eval_block w es s.
Proof. exact deep_eval_same. Qed.
Print Assumptions C106_same.
Theorem C106_bounded : forall w A B es s, answers w B -> (forall n m as_, ctx_request (s_ctx s) n = Some (m, as_) -> heights as_ <= A) ->
  snd (deep_eval_block w es s) <= heights es + Nat.max A (S B).
Proof. exact eval_depth_bound. Qed.
Print Assumptions C106_bounded.
Theorem C106_source : forall text src w B es s, parse text = Ok src -> answers w B -> (forall n, ctx_request (s_ctx s) n = mget n (s_requests src)) ->
  es = s_exprs src \/ (exists n, mget n (s_tests src) = Some es) ->
  snd (deep_eval_block w es s) <= length text + Nat.max (length text) (S B).
Proof. exact source_depth. Qed.
Print Assumptions C106_source.
Theorem C106_needed : forall w e s v, everywhere eager1 e -> fst (eval_block w [e] s) = Ok v -> height e <= snd (deep_eval_block w [e] s).
Proof. exact eval_depth_needed. Qed.
Print Assumptions C106_needed.
Theorem C106_answer : forall w n s message asserts rq rs t er, ctx_request (s_ctx s) n = Some (message, asserts) ->
  client_send (e_prepare w) (e_net w (s_trace s) (substitute (var_text (e_host w) (s_ctx s)) message)) (substitute (var_text (e_host w) (s_ctx s)) message) = Ok (rq, rs, t, er) ->
  S (body_depth (rs_body rs)) <= snd (deep_eval_block w [ECall n []] s).
Proof. exact call_depth. Qed.
Print Assumptions C106_answer.
Theorem C106_read : forall text, body_depth text <= S (length text).
Proof. exact body_depth_length. Qed.
Print Assumptions C106_read.
Example C106_example : deep_script online (lit "1+2*(3+x)") = Some 5 /\ deep_script online (lit "request r`GET http://h/`[json[""n""] == 7] r()") = Some 3 /\
  deep_script online (lit "true || (1 + (2 + 3))") = Some 2 /\ everywhere eager1 (sum_expr 3) /\ fst (eval_block online [sum_expr 3] (St ctx_new [])) = Ok (VInt 4).
Proof. exact eval_depths. Qed.

Example C106_answers_example : answers online 7.
Proof. exact online_answers. Qed.

(** there is no depth that is enough: short texts that need more *)

Theorem C106_sum : forall n, exists src, parse (long_sum n) = Ok src /\ parse_depth (long_sum n) <= 12 /\
  forall w s, S n <= snd (deep_eval_block w (s_exprs src) s).
Proof. exact sum_depth. Qed.
Print Assumptions C106_sum.
Theorem C106_server : forall k, exists src rs, parse (lit "request r`GET http://h/` r()") = Ok src /\ rs_body rs = repeat 91%N k /\
  (exists rq t, client_send (e_prepare (brackets_server k)) (e_net (brackets_server k) [] (lit "GET http://h/")) (lit "GET http://h/") = Ok (rq, rs, t, [])) /\
  k < snd (deep_eval_block (brackets_server k) (s_exprs src) (St (ctx_extend ctx_new (s_requests src)) [])).
Proof. exact brackets_overflow. Qed.
Print Assumptions C106_server.
