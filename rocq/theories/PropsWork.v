(** C108, C109 *)
From Verif Require Import SpecWork SpecStack SpecSyntax SpecEval EvaluatorProofs WorkProofs EvalWorkProofs ValueExamples EvalExamples StackExamples WorkExamples.
Open Scope nat_scope.

(** C108.  How often the parser calls itself and goes round its loops *)

Theorem C108_same : forall n, forall src ts, fst (work_top n src ts) = parse_top n src ts.
Proof. exact wsame_top. Qed.
Print Assumptions C108_same.
Theorem C108_tokens : forall text, parse text <> Diverge -> parse_work text <= 3 * length (segment text) + 4.
Proof. exact parse_work_tokens. Qed.
Print Assumptions C108_tokens.
Theorem C108_length : forall text, parse text <> Diverge -> parse_work text <= 3 * length text + 7.
Proof. exact parse_work_length. Qed.
Print Assumptions C108_length.
Theorem C108_least : forall text src, parse text = Ok src -> sizes (s_exprs src) <= parse_work text.
Proof. exact parse_work_least. Qed.
Print Assumptions C108_least.
Example C108_example : parse_work (lit "[[1],[2,[3]]]") = 26 /\ length (segment (lit "[[1],[2,[3]]]")) = 14 /\ parse_work (lit "[1 2") = 5 /\ length (segment (lit "[1 2")) = 4 /\
  parse (lit "[[1],[2,[3]]]") <> Diverge /\ (exists e, parse (lit "[1 2") = Err e) /\ exists src, parse (lit "1+2*(3+4)") = Ok src /\ sizes (s_exprs src) = 8 /\ parse_work (lit "1+2*(3+4)") = 15.
Proof. exact parse_works. Qed.

(** and when it does not end, no number is enough *)

Theorem C108_endless : forall n, n <= snd (work_top n (Source [] [] []) (segment (lit "a!b"))).
Proof. exact spinning_on. Qed.
Print Assumptions C108_endless.
(** C109.  How often the evaluator calls itself *)

Theorem C109_same : forall w es s, fst (work_eval_block w es s) = eval_block w es s.
Proof. exact work_eval_same. Qed.
Print Assumptions C109_same.
Theorem C109_bounded : forall w A B es s, answers w B -> (forall n m as_, ctx_request (s_ctx s) n = Some (m, as_) -> sizes as_ <= A) -> fst (eval_block w es s) <> Diverge ->
  snd (work_eval_block w es s) <= sizes es + (sent (s_trace (snd (eval_block w es s))) - sent (s_trace s)) * (A + (4 * B + 7)).
Proof. exact eval_work_bound. Qed.
Print Assumptions C109_bounded.
Theorem C109_least : forall w e s v, everywhere eager1 e -> fst (eval_block w [e] s) = Ok v -> size e <= snd (work_eval_block w [e] s).
Proof. exact eval_work_needed. Qed.
Print Assumptions C109_least.
Theorem C109_source : forall text src w B es s, parse text = Ok src -> answers w B -> (forall n, ctx_request (s_ctx s) n = mget n (s_requests src)) ->
  es = s_exprs src \/ (exists n, mget n (s_tests src) = Some es) -> fst (eval_block w es s) <> Diverge ->
  snd (work_eval_block w es s) <= length text * (length text + 4 * B + 8).
Proof. exact source_work. Qed.
Print Assumptions C109_source.
Theorem C109_sizes : forall text src, parse text = Ok src ->
  sizes (s_exprs src) <= length text /\
  (forall n m es, mget n (s_requests src) = Some (m, es) -> sizes es <= length text) /\
  (forall n b, mget n (s_tests src) = Some b -> sizes b <= length text).
Proof. exact source_size. Qed.
Print Assumptions C109_sizes.
Theorem C109_read : forall text, parse text <> Diverge -> body_work text <= 4 * length text + 7.
Proof. exact body_work_length. Qed.
Print Assumptions C109_read.
Theorem C109_answer : forall w n s message asserts rq rs t er, ctx_request (s_ctx s) n = Some (message, asserts) ->
  client_send (e_prepare w) (e_net w (s_trace s) (substitute (var_text (e_host w) (s_ctx s)) message)) (substitute (var_text (e_host w) (s_ctx s)) message) = Ok (rq, rs, t, er) ->
  S (body_work (rs_body rs)) <= snd (work_eval_block w [ECall n []] s) /\
  forall src, parse (rs_body rs) = Ok src -> sizes (s_exprs src) <= body_work (rs_body rs).
Proof. exact call_work. Qed.
Print Assumptions C109_answer.
Example C109_example : work_script online (lit "1+2*(3+4)") = Some (15, 8) /\ work_script online (lit "true || (1 + (2 + 3))") = Some (17, 2) /\
  work_script online (lit "request r`GET http://h/`[json[""n""] == 7, status < 300] [r(), r()]") = Some (32, 41) /\ body_work (lit "{""n"":7}") = 13.
Proof. exact eval_works. Qed.

(** but the values are not bounded so: ten more characters of source double the text it makes *)

Theorem C109_grows : forall n, exists src, parse (doubling n) = Ok src /\ length (doubling n) = 10 + 10 * n /\
  forall w s, exists x, fst (eval_block w (s_exprs src) s) = Ok (VStr x) /\ length x = 2 ^ n.
Proof. exact doubling_grows. Qed.
Print Assumptions C109_grows.
