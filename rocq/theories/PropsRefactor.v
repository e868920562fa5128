(** C110 to C112 *)
From Verif Require Import EvaluatorTop EvalExamples RenameProofs RefactorProofs InlineProofs RefactorExamples SpecReads SpecRename SpecRefactor.
Open Scope nat_scope.

(** C110.  Renaming variables and requests *)

Theorem C110_expression : forall w v r e s s', one_to_one v -> keeps_natives r -> renamed v r s s' -> exists o t t',
  eval_expr w e s = (o, t) /\ eval_expr w (rename v r e) s' = (rename_result v r o, t') /\ renamed v r t t'.
Proof. exact renamed_expr. Qed.
Print Assumptions C110_expression.
Theorem C110_block : forall w v r es s s', one_to_one v -> keeps_natives r -> renamed v r s s' -> exists o t t',
  eval_block w es s = (o, t) /\ eval_block w (map (rename v r) es) s' = (rename_result v r o, t') /\ renamed v r t t'.
Proof. exact renamed_block. Qed.
Print Assumptions C110_block.
Theorem C110_program : forall w v r q q' es, one_to_one v -> one_to_one r -> keeps_natives r ->
  Forall2 (fun a b => fst b = r (fst a) /\ snd (snd b) = snd (snd a) /\ retold v (fst (snd a)) (fst (snd b))) q q' ->
  exists o t t', eval_block w es (St (Ctx [] q []) []) = (o, t) /\ eval_block w (map (rename v r) es) (St (Ctx [] q' []) []) = (rename_result v r o, t') /\ renamed v r t t'.
Proof. exact renamed_program. Qed.
Print Assumptions C110_program.
Theorem C110_templates : forall v t, (forall n, identifier n -> identifier (v n)) -> exists t', retold v t t'.
Proof. exact retell. Qed.
Print Assumptions C110_templates.
Example C110_example : one_to_one mine /\ one_to_one ours /\ keeps_natives ours /\ exprs_of after = map (rename mine ours) (exprs_of before) /\
  Forall2 (fun a b => fst b = ours (fst a) /\ snd (snd b) = snd (snd a) /\ retold mine (fst (snd a)) (fst (snd b))) (reqs_of before) (reqs_of after) /\
  length (exprs_of before) = 4 /\ length (reqs_of before) = 1 /\
  view (script online before) = Some (Some (VInt 8), [(lit "host", VStr (lit "h")); (lit "id", VInt 1)], lit "x" ++ [10%N], 1, 1) /\
  view (script online after) = Some (Some (VInt 8), [(lit "my_host", VStr (lit "h")); (lit "my_id", VInt 1)], lit "x" ++ [10%N], 1, 1) /\
  sent_messages (script online after) = [lit "GET http://h/1"].
Proof. exact renames. Qed.

Example C110_identifiers : forall n, identifier n -> identifier (mine n).
Proof. exact mine_identifier. Qed.

Example C110_assertions : asserts_of (script online (lit "request get`GET http://h/`[status == 200] get()")) = [[(lit "status == 200", lit "200", lit "200", true)]] /\
  asserts_of (script online (lit "request get`GET http://h/`[my_status == 200] get()")) = [[(lit "my_status == 200", lit "null", lit "200", false)]].
Proof. exact renames_asserts. Qed.

(** two names must not become one *)

Theorem C110_clash_refuted : exists w v r es s, keeps_natives r /\ ~ one_to_one v /\ renamed v r s s /\
  exists o o', fst (eval_block w es s) = Ok o /\ fst (eval_block w (map (rename v r) es) s) = Ok o' /\ o <> o'.
Proof. exact renames_clash. Qed.
Print Assumptions C110_clash_refuted.
(** C111.  Swapping and leaving out statements *)

Theorem C111_swap : forall w a b s va vb s', called a = [] \/ called b = [] -> independent (c_reqs (s_ctx s)) a b ->
  in_order w [a; b] s [va; vb] s' -> exists s'', in_order w [b; a] s [vb; va] s'' /\ same_state s' s''.
Proof. exact swap. Qed.
Print Assumptions C111_swap.
Theorem C111_within : forall w es1 a b es2 s vs s1, es2 <> [] -> called a = [] \/ called b = [] -> independent (c_reqs (s_ctx s)) a b ->
  in_order w (es1 ++ [a; b]) s vs s1 ->
  exists o t t', eval_block w (es1 ++ a :: b :: es2) s = (o, t) /\ eval_block w (es1 ++ b :: a :: es2) s = (o, t') /\ same_state t t'.
Proof. exact swap_within. Qed.
Print Assumptions C111_within.
Theorem C111_unused : forall w a es s v s1, es <> [] -> called a = [] -> eval_expr w a s = (Ok v, s1) ->
  (forall e n, In e es -> In n (let_names a) -> ~ reads (c_reqs (s_ctx s)) e n) ->
  exists o t t', eval_block w (a :: es) s = (o, t) /\ eval_block w es s = (o, t') /\ same_but (let_names a) t t'.
Proof. exact drop_unused. Qed.
Print Assumptions C111_unused.
Example C111_example : called doubling = [] /\ independent (c_reqs (s_ctx there)) doubling asking /\ (exists s', in_order online [doubling; asking] there [VInt 6; VInt 200] s') /\
  (exists s', in_order online [asking; doubling] there [VInt 200; VInt 6] s').
Proof. exact swaps. Qed.

Example C111_drop_example : called doubling = [] /\ fst (eval_expr online doubling there) = Ok (VInt 6) /\ let_names doubling = [lit "x"] /\
  (forall e n, In e [asking] -> In n (let_names doubling) -> ~ reads (c_reqs (s_ctx there)) e n) /\
  fst (eval_block online [doubling; asking] there) = Ok (VInt 200) /\ fst (eval_block online [asking] there) = Ok (VInt 200).
Proof. exact drops. Qed.

(** not when both make calls, and not when what is left out fails *)

Theorem C111_calls_refuted : exists w a b s va vb s', independent (c_reqs (s_ctx s)) a b /\ in_order w [a; b] s [va; vb] s' /\
  ~ exists s'', in_order w [b; a] s [vb; va] s'' /\ same_state s' s''.
Proof. exact swaps_printing. Qed.
Print Assumptions C111_calls_refuted.
Theorem C111_failing_refuted : exists w a es s, es <> [] /\ called a = [] /\ (forall e n, In e es -> In n (let_names a) -> ~ reads (c_reqs (s_ctx s)) e n) /\
  exists v, fst (eval_block w es s) = Ok v /\ fst (eval_block w (a :: es) s) <> Ok v.
Proof. exact drops_failing. Qed.
Print Assumptions C111_failing_refuted.
(** C112.  Writing the expression in place of the variable *)

Theorem C112_inline : forall w x e es s v s1, es <> [] -> called e = [] -> let_names e = [] -> eval_expr w e s = (Ok v, s1) ->
  (forall a, In a es -> ~ In x (let_names a) /\ (forall n, In n (idents e) -> ~ In n (let_names a)) /\ not_in_templates (c_reqs (s_ctx s)) x a) ->
  exists o t t', eval_block w (ELet x e :: es) s = (o, t) /\ eval_block w (map (inline x e) es) s = (inline_result x e o, t') /\ same_but [x] t t'.
Proof. exact inlined. Qed.
Print Assumptions C112_inline.
Example C112_example : called (one (lit "y * 2")) = [] /\ let_names (one (lit "y * 2")) = [] /\ fst (eval_expr online (one (lit "y * 2")) there) = Ok (VInt 6) /\ length body_x = 3 /\
  (forall a, In a body_x -> ~ In (lit "x") (let_names a) /\ (forall n, In n (idents (one (lit "y * 2"))) -> ~ In n (let_names a)) /\ not_in_templates (c_reqs (s_ctx there)) (lit "x") a) /\
  map (inline (lit "x") (one (lit "y * 2"))) body_x = exprs_of (lit "get(); let z = [(y * 2), if ((y * 2) < 7) { (y * 2) + 1 }]; z") /\
  fst (eval_block online (doubling :: body_x) there) = Ok (VArr [VInt 6; VInt 7]).
Proof. exact inlines. Qed.

(** not when a placeholder reads the variable *)

Theorem C112_placeholder_refuted : exists w x e es s v s1, es <> [] /\ called e = [] /\ let_names e = [] /\ eval_expr w e s = (Ok v, s1) /\
  (forall a, In a es -> ~ In x (let_names a) /\ (forall n, In n (idents e) -> ~ In n (let_names a))) /\
  s_trace (snd (eval_block w (ELet x e :: es) s)) <> s_trace (snd (eval_block w (map (inline x e) es) s)).
Proof. exact inlines_template. Qed.
Print Assumptions C112_placeholder_refuted.
