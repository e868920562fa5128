(** C16-C32 *)
From Verif Require Import SpecNumber SpecEval SpecSyntax ValueExamples EvaluatorTop PureProofs EvalExamples.
Open Scope nat_scope.

(** C16.  [counts_false]: the value is false or null. *)

Theorem C16_short_circuit : forall w t l r s o s1, eval_expr w l s = (o, s1) ->
  (~ is_ok o -> tkind t = KLa \/ tkind t = KLo -> eval_expr w (EBin t l r) s = (o, s1)) /\
  (forall v, o = Ok v ->
    (tkind t = KLa -> counts_false v -> eval_expr w (EBin t l r) s = (Ok v, s1)) /\
    (tkind t = KLa -> ~ counts_false v -> eval_expr w (EBin t l r) s = eval_expr w r s1) /\
    (tkind t = KLo -> counts_false v -> eval_expr w (EBin t l r) s = eval_expr w r s1) /\
    (tkind t = KLo -> ~ counts_false v -> eval_expr w (EBin t l r) s = (Ok v, s1))).
Proof. exact and_or. Qed.
Print Assumptions C16_short_circuit.
Example C16_example :
  view (script debug (lit "let a = false && (let b = 1); let c = 0 || println(""x""); let d = a || 3")) =
    Some (Some (VInt 3), [(lit "a", VBool false); (lit "c", VInt 0); (lit "d", VInt 3)], [], 0, 0).
Proof. vm_compute. reflexivity. Qed.

(** C17 *)

Theorem C17_conditional : forall w c a b s o s1, eval_expr w c s = (o, s1) ->
  (~ is_ok o -> eval_expr w (EIf c a b) s = (o, s1)) /\
  (forall v, o = Ok v ->
    (counts_false v -> eval_expr w (EIf c a b) s = eval_block w b s1) /\
    (~ counts_false v -> eval_expr w (EIf c a b) s = eval_block w a s1)).
Proof. exact conditional. Qed.
Print Assumptions C17_conditional.
Theorem C17_empty_branch : forall w s, eval_block w [] s = (Ok VNull, s).
Proof. exact block_nil. Qed.
Print Assumptions C17_empty_branch.
Theorem C17_only_false_and_null : forall v, v <> VBool false -> v <> VNull -> ~ counts_false v.
Proof. exact truthy. Qed.
Print Assumptions C17_only_false_and_null.
Example C17_example :
  view (script debug (lit "let a = if (0) { 1 } else { 2 }; let b = if ("""") { 1 } else { 2 }; let c = if (false) { println(""x"") }; let d = if (c) { 1 } else { 2 }")) =
    Some (Some (VInt 2), [(lit "a", VInt 1); (lit "b", VInt 1); (lit "c", VNull); (lit "d", VInt 2)], [], 0, 0).
Proof. vm_compute. reflexivity. Qed.

(** C18 *)

Theorem C18_sequence : forall w a b s, b <> [] -> eval_block w (a ++ b) s =
  match eval_block w a s with (Ok _, s1) => eval_block w b s1 | r => r end.
Proof. exact block_app. Qed.
Print Assumptions C18_sequence.
Theorem C18_single : forall w e s, eval_block w [e] s = eval_expr w e s.
Proof. exact block_one. Qed.
Print Assumptions C18_single.
Theorem C18_empty : forall w s, eval_block w [] s = (Ok VNull, s).
Proof. exact block_nil. Qed.
Print Assumptions C18_empty.
Theorem C18_all_or_first_failure : forall w es s, (exists vs s', in_order w es s vs s' /\ eval_block w es s = (Ok (last vs VNull), s')) \/
  (exists o s', breaks w es s o s' /\ eval_block w es s = (o, s')).
Proof. exact block_order. Qed.
Print Assumptions C18_all_or_first_failure.
Example C18_example :
  view (script debug (lit "let a = 1; let b = nope; let c = 3")) = Some (None, [(lit "a", VInt 1)], [], 0, 0) /\
  view (script debug (lit "let a = 1; let c = a + 3")) = Some (Some (VInt 4), [(lit "a", VInt 1); (lit "c", VInt 4)], [], 0, 0).
Proof. vm_compute. split; reflexivity. Qed.

(** C19 *)

Theorem C19_frame : forall w e s o s', eval_expr w e s = (o, s') ->
  (forall n, ~ In n (let_names e) -> mget n (c_vars (s_ctx s')) = mget n (c_vars (s_ctx s))) /\
  c_reqs (s_ctx s') = c_reqs (s_ctx s) /\
  (exists recs, c_recs (s_ctx s') = c_recs (s_ctx s) ++ recs) /\ (exists tr, s_trace s' = s_trace s ++ tr).
Proof. exact frame. Qed.
Print Assumptions C19_frame.
Theorem C19_block_frame : forall w es s o s', eval_block w es s = (o, s') ->
  (forall n, ~ In n (flat_map let_names es) -> mget n (c_vars (s_ctx s')) = mget n (c_vars (s_ctx s))) /\
  c_reqs (s_ctx s') = c_reqs (s_ctx s) /\
  (exists recs, c_recs (s_ctx s') = c_recs (s_ctx s) ++ recs) /\ (exists tr, s_trace s' = s_trace s ++ tr).
Proof. exact block_frame. Qed.
Print Assumptions C19_block_frame.
Example C19_example : exists e, let_names e = [lit "b"] /\
  view (Some (eval_expr debug e (St (Ctx [(lit "a", VInt 1); (lit "b", VInt 2)] [] []) []))) =
    Some (None, [(lit "a", VInt 1); (lit "b", VInt 5)], [], 0, 0).
Proof. exists (EBin (Tok KAdd (lit "+")) (ELet (lit "b") (EInt 5)) (EStr (lit "x"))). split; reflexivity. Qed.

(** C20 *)

Theorem C20_let : forall w n e s o s1, eval_expr w e s = (o, s1) ->
  (forall v, o = Ok v -> exists s2, eval_expr w (ELet n e) s = (Ok v, s2) /\
     eval_expr w (EIdent n) s2 = (Ok v, s2) /\
     (forall m, m <> n -> mget m (c_vars (s_ctx s2)) = mget m (c_vars (s_ctx s1))) /\
     c_reqs (s_ctx s2) = c_reqs (s_ctx s1) /\ c_recs (s_ctx s2) = c_recs (s_ctx s1) /\ s_trace s2 = s_trace s1) /\
  (~ is_ok o -> eval_expr w (ELet n e) s = (o, s1)).
Proof. exact let_binds. Qed.
Print Assumptions C20_let.
Theorem C20_read : forall w n s, eval_expr w (EIdent n) s =
  match mget n (c_vars (s_ctx s)) with Some v => (Ok v, s) | None => (Err (EIdentNotFound n), s) end.
Proof. exact reads. Qed.
Print Assumptions C20_read.
Theorem C20_until_rebound : forall w n v es s o s', mget n (c_vars (s_ctx s)) = Some v -> ~ In n (flat_map let_names es) ->
  eval_block w es s = (o, s') -> eval_expr w (EIdent n) s' = (Ok v, s').
Proof. exact let_persists. Qed.
Print Assumptions C20_until_rebound.
Example C20_example :
  view (script debug (lit "let a = 1; let b = a + 1; let a = a + nope")) = Some (None, [(lit "a", VInt 1); (lit "b", VInt 2)], [], 0, 0).
Proof. vm_compute. reflexivity. Qed.

(** C21.  The state left by an access is the one left by the operands; without [let] and calls nothing changes at all. *)

Theorem C21_array_index : forall w v i s items z s', in_order w [v; i] s [VArr items; VInt z] s' ->
  (forall x, (0 <= z)%Z -> nth_error items (Z.to_nat z) = Some x -> eval_expr w (EIndex v i) s = (Ok x, s')) /\
  ((z < 0 \/ Z.of_nat (length items) <= z)%Z -> eval_expr w (EIndex v i) s = (Ok VNull, s')).
Proof. exact array_index. Qed.
Print Assumptions C21_array_index.
Theorem C21_map_index : forall w v i s m k s', in_order w [v; i] s [VMap m; k] s' ->
  eval_expr w (EIndex v i) s = (Ok (match mget (show_value (e_host w) k) m with Some x => x | None => VNull end), s').
Proof. exact map_index. Qed.
Print Assumptions C21_map_index.
Theorem C21_other_index : forall w v i s x k s', in_order w [v; i] s [x; k] s' ->
  (forall m, x <> VMap m) -> (forall a z, ~ (x = VArr a /\ k = VInt z)) ->
  exists e, eval_expr w (EIndex v i) s = (Err e, s') /\
    everr_text (e_host w) e = lit "index operator not support: " ++ debug_value (e_host w) x.
Proof. exact bad_index. Qed.
Print Assumptions C21_other_index.
Theorem C21_operand_failure : forall w v i s o s', breaks w [v; i] s o s' -> eval_expr w (EIndex v i) s = (o, s').
Proof. exact index_breaks. Qed.
Print Assumptions C21_operand_failure.
Theorem C21_field : forall w e f s o s', eval_expr w e s = (o, s') ->
  (~ is_ok o -> eval_expr w (EField e f) s = (o, s')) /\
  (forall m, o = Ok (VMap m) -> eval_expr w (EField e f) s = (Ok (match mget f m with Some x => x | None => VNull end), s')) /\
  (forall x, o = Ok x -> (forall m, x <> VMap m) -> exists er, eval_expr w (EField e f) s = (Err er, s') /\
     everr_text (e_host w) er = lit "field operator not support: " ++ debug_value (e_host w) x).
Proof. exact field_access. Qed.
Print Assumptions C21_field.
Theorem C21_unchanged : forall w e s, let_names e = [] -> call_count e = 0 -> exists o, eval_expr w e s = (o, s).
Proof. exact pure_still. Qed.
Print Assumptions C21_unchanged.
Example C21_example :
  view (script debug (lit "let a = [10, 20]; let m = {1: 5, ""k"": 6}; [a[1], a[0-1], a[2], m[""1""], m.k, m.z]")) =
    Some (Some (VArr [VInt 20; VNull; VNull; VInt 5; VInt 6; VNull]),
          [(lit "a", VArr [VInt 10; VInt 20]); (lit "m", VMap [(lit "1", VInt 5); (lit "k", VInt 6)])], [], 0, 0) /\
  view (script debug (lit "let a = 1; a[0]")) = Some (None, [(lit "a", VInt 1)], [], 0, 0).
Proof. vm_compute. split; reflexivity. Qed.

(** C22 *)

Theorem C22_map_literal : forall w ps s, (forall vs s', in_order w (flatten ps) s vs s' -> exists m, eval_expr w (EMap ps) s = (Ok (VMap m), s') /\
     NoDup (map fst m) /\ forall k v, mget k m = Some v <-> last_set k (pair_up w vs) v) /\
  (forall o s', breaks w (flatten ps) s o s' -> eval_expr w (EMap ps) s = (o, s')).
Proof. exact map_literal. Qed.
Print Assumptions C22_map_literal.
Example C22_example :
  view (script debug (lit "{1: (let a = 1), ""1"": a + 1, a: (let a = 9)}")) = Some (Some (VMap [(lit "1", VInt 9)]), [(lit "a", VInt 9)], [], 0, 0) /\
  view (script debug (lit "{1: 4, ""x"": 5, ""1"": 6}")) = Some (Some (VMap [(lit "1", VInt 6); (lit "x", VInt 5)]), [], [], 0, 0).
Proof. vm_compute. split; reflexivity. Qed.

(** C23 *)

Theorem C23_one_way_or_the_other : forall w es, forall s, (exists vs s', in_order w es s vs s') \/ (exists o s', breaks w es s o s').
Proof. exact order_or_break. Qed.
Print Assumptions C23_one_way_or_the_other.
Theorem C23_array : forall w es s, (forall vs s', in_order w es s vs s' -> eval_expr w (EArr es) s = (Ok (VArr vs), s')) /\
  (forall o s', breaks w es s o s' -> eval_expr w (EArr es) s = (o, s')).
Proof. exact array_order. Qed.
Print Assumptions C23_array.
Theorem C23_argument_failure : forall w n args s o s', breaks w args s o s' -> eval_expr w (ECall n args) s = (o, s').
Proof. exact args_break. Qed.
Print Assumptions C23_argument_failure.
Theorem C23_binary : forall w t l r s, In (tkind t) strict_kinds ->
  (forall v1 v2 s', in_order w [l; r] s [v1; v2] s' -> eval_expr w (EBin t l r) s = (binop w (tkind t) v1 v2, s')) /\
  (forall o s', breaks w [l; r] s o s' -> eval_expr w (EBin t l r) s = (o, s')).
Proof. exact binary_order. Qed.
Print Assumptions C23_binary.
Theorem C23_unary : forall w t e s o s1, eval_expr w e s = (o, s1) ->
  (~ is_ok o -> eval_expr w (EUn t e) s = (o, s1)) /\
  (forall v x, o = Ok v -> unop w (tkind t) v = Ok x -> eval_expr w (EUn t e) s = (Ok x, s1)) /\
  (forall v, o = Ok v -> unop w (tkind t) v = Panic -> eval_expr w (EUn t e) s = (Panic, s1)) /\
  (forall v er, o = Ok v -> unop w (tkind t) v = Err er -> exists er', eval_expr w (EUn t e) s = (Err er', s1)).
Proof. exact unary_order. Qed.
Print Assumptions C23_unary.
Example C23_example :
  view (script debug (lit "let a = 1; [print(""x""), (let a = a + 1) + (let a = a * 10), a]")) =
    Some (Some (VArr [VNull; VInt 22; VInt 20]), [(lit "a", VInt 20)], lit "x", 0, 0) /\
  view (script debug (lit "[print(""x""), nope, print(""y"")]")) = Some (None, [], lit "x", 0, 0).
Proof. vm_compute. split; reflexivity. Qed.

(** C24.  Evaluation ends with a value or an error exactly when [returns]; a panic between sending and recording loses that one record. *)

Theorem C24_expression : forall w e s o s', eval_expr w e s = (o, s') ->
  exists recs tr, c_recs (s_ctx s') = c_recs (s_ctx s) ++ recs /\ s_trace s' = s_trace s ++ tr /\
    sent tr <= call_count e /\ (returns o -> sent tr = length recs) /\ (length recs <= sent tr <= S (length recs)).
Proof. exact requests_sent. Qed.
Print Assumptions C24_expression.
Theorem C24_block : forall w es s o s', eval_block w es s = (o, s') ->
  exists recs tr, c_recs (s_ctx s') = c_recs (s_ctx s) ++ recs /\ s_trace s' = s_trace s ++ tr /\
    sent tr <= list_sum (map call_count es) /\ (returns o -> sent tr = length recs) /\ (length recs <= sent tr <= S (length recs)).
Proof. exact block_requests_sent. Qed.
Print Assumptions C24_block.
Example C24_example :
  view (script online (lit "let host = 1;" ++ request_get ++ lit "get(); [get(get()), 1]; 0")) =
    Some (Some (VInt 0), [(lit "host", VInt 1)], [], 3, 3).
Proof. vm_compute. reflexivity. Qed.

(** C25.  Two calls of the same definition from different contexts that send the
    same message and get the same exchange: same outcome, same record, same
    output; the variables and definitions of each caller are untouched, and the
    asserts send nothing. *)

Theorem C25_isolated : forall w n args1 args2 s1 s2 vs1 vs2 t1 t2 template asserts msg, in_order w args1 s1 vs1 t1 -> in_order w args2 s2 vs2 t2 ->
  mget n (c_reqs (s_ctx t1)) = Some (template, asserts) -> mget n (c_reqs (s_ctx t2)) = Some (template, asserts) ->
  message_of w (s_ctx t1) template msg -> message_of w (s_ctx t2) template msg ->
  e_net w (s_trace t1) msg = e_net w (s_trace t2) msg ->
  exists o recs pr, sent pr = 0 /\ length recs <= 1 /\
    eval_expr w (ECall n args1) s1 =
      (o, St (Ctx (c_vars (s_ctx t1)) (c_reqs (s_ctx t1)) (c_recs (s_ctx t1) ++ recs)) (s_trace t1 ++ Sent msg :: pr)) /\
    eval_expr w (ECall n args2) s2 =
      (o, St (Ctx (c_vars (s_ctx t2)) (c_reqs (s_ctx t2)) (c_recs (s_ctx t2) ++ recs)) (s_trace t2 ++ Sent msg :: pr)).
Proof. exact isolated. Qed.
Print Assumptions C25_isolated.
Example C25_example :
  asserts_of (script online (lit "let host = ""h""; let status = 1;" ++ request_get ++ lit "get(); status")) =
    [[(lit "status == 200", lit "200", lit "200", true); (lit "version == host", lit "HTTP/1.1", lit "null", false);
      (lit "get() == 1", lit "null", lit "1", false); (lit "json.n >= 7", lit "7", lit "7", true)]].
Proof. vm_compute. reflexivity. Qed.

(** C26.  [asserted]: what the declared assertions report.  A call succeeds exactly
    when the exchange and the assertions complete, and then the record holds the
    reported assertions and the result is the response seen by them. *)

Theorem C26_reported : forall w n args s vs s1 template asserts msg v s', in_order w args s vs s1 -> mget n (c_reqs (s_ctx s1)) = Some (template, asserts) -> message_of w (s_ctx s1) template msg ->
  (eval_expr w (ECall n args) s = (Ok v, s') <->
   exists rq rs t er m as_ s2,
     client_send (e_prepare w) (e_net w (s_trace s1) msg) msg = Ok (rq, rs, t, er) /\
     to_map (e_host w) rs = Ok m /\
     asserted w asserts (St (Ctx m [] []) (s_trace s1 ++ [Sent msg])) as_ s2 /\
     v = VMap (c_vars (s_ctx s2)) /\
     s' = St (Ctx (c_vars (s_ctx s1)) (c_reqs (s_ctx s1)) (c_recs (s_ctx s1) ++ [Record_ n t rq rs as_ er])) (s_trace s2)).
Proof. exact call_reports. Qed.
Print Assumptions C26_reported.
Theorem C26_only_comparisons : forall w es s as_ s', asserted w es s as_ s' ->
  Forall2 (fun e a => exists t l r, e = EBin t l r /\
     a_expr a = show_expr l ++ lit " " ++ tlit t ++ lit " " ++ show_expr r /\ a_compare a = tlit t)
    (filter (comparison_expr) es) as_.
Proof. exact asserted_texts. Qed.
Print Assumptions C26_only_comparisons.
Theorem C26_results : forall w es s as_ s', asserted w es s as_ s' ->
  Forall (fun a => exists k lv rv, In k comparison_kinds /\ a_left a = show_value (e_host w) lv /\
    a_right a = show_value (e_host w) rv /\ binop w k lv rv = Ok (VBool (a_result a))) as_.
Proof. exact asserted_results. Qed.
Print Assumptions C26_results.
Example C26_example :
  asserts_of (script online (lit "request r`GET http://h/`[status < 300, !status, status && 1, (status == 1), status != 200, 5] r()")) =
    [[(lit "status < 300", lit "200", lit "300", true); (lit "status != 200", lit "200", lit "200", false)]].
Proof. vm_compute. reflexivity. Qed.

(** C27 *)

Theorem C27_verdict : forall r, exists v d, duration_text (t_total (r_time r)) d /\
  show_record r =
    lit "=== TEST  " ++ r_name r ++ [10%N] ++
    flat_map (fun a => a_expr a ++ lit " => " ++ a_left a ++ lit " " ++ a_compare a ++ lit " " ++ a_right a ++ lit " => "
                       ++ (if a_result a then lit "true" else lit "false") ++ [10%N]) (r_asserts r) ++
    lit "--- " ++ v ++ lit "  " ++ r_name r ++ lit " (" ++ d ++ lit ")" /\
  (v = lit "PASS" <-> forall a, In a (r_asserts r) -> a_result a = true) /\
  (v = lit "FAIL" <-> exists a, In a (r_asserts r) /\ a_result a = false).
Proof. exact verdict. Qed.
Print Assumptions C27_verdict.
Theorem C27_offline_passes : exists e s', eval_block debug [ECall (lit "get") []] (St (Ctx [] [(lit "get", (lit "GET http://h/", [e]))] []) []) = s' /\
  match s' with
  | (Ok _, s2) => exists r, c_recs (s_ctx s2) = [r] /\ r_error r <> [] /\ r_asserts r = [] /\
      show_record r = lit "=== TEST  get" ++ [10%N] ++ lit "--- PASS  get (0ns)"
  | _ => False end.
Proof. exact offline_passes. Qed.
Print Assumptions C27_offline_passes.
Example C27_example :
  printed_records (script online (lit "request r`GET http://h/`[status < 300, status != 200] r()")) =
    [lit "=== TEST  r" ++ [10%N] ++ lit "status < 300 => 200 < 300 => true" ++ [10%N] ++
     lit "status != 200 => 200 != 200 => false" ++ [10%N] ++ lit "--- FAIL  r (10ns)"].
Proof. vm_compute. reflexivity. Qed.

(** C28.  What the built-ins do is described by C29, C31 and C32. *)

Theorem C28_request : forall w n args s vs s1 template asserts msg, in_order w args s vs s1 -> mget n (c_reqs (s_ctx s1)) = Some (template, asserts) -> message_of w (s_ctx s1) template msg ->
  exists o recs pr, sent pr = 0 /\ length recs <= 1 /\
    eval_expr w (ECall n args) s =
      (o, St (Ctx (c_vars (s_ctx s1)) (c_reqs (s_ctx s1)) (c_recs (s_ctx s1) ++ recs)) (s_trace s1 ++ Sent msg :: pr)).
Proof. exact runs_request. Qed.
Print Assumptions C28_request.
Theorem C28_unknown : forall w n args s vs s1, in_order w args s vs s1 -> unshadowed n s1 -> ~ In n native_names ->
  exists e, eval_expr w (ECall n args) s = (Err e, s1) /\ everr_text (e_host w) e = lit "function " ++ n ++ lit " not found".
Proof. exact unknown_function. Qed.
Print Assumptions C28_unknown.
Theorem C28_builtin : forall w n args s vs s1, in_order w args s vs s1 -> unshadowed n s1 -> In n native_names ->
  exists o pr, sent pr = 0 /\ eval_expr w (ECall n args) s = (o, St (s_ctx s1) (s_trace s1 ++ pr)) /\ returns o /\
    forall e, o = Err e -> everr_text (e_host w) e <> lit "function " ++ n ++ lit " not found".
Proof. exact runs_builtin. Qed.
Print Assumptions C28_builtin.
Example C28_example :
  view (script online (lit "request println`GET http://h/` println(""x""); 1")) = Some (Some (VInt 1), [], [], 1, 1) /\
  view (script online (lit "length(""ab"")")) = Some (Some (VInt 2), [], [], 0, 0) /\
  view (script online (lit "nope(print(""x""))")) = Some (None, [], lit "x", 0, 0).
Proof. vm_compute. repeat split. Qed.

(** C29 *)

Theorem C29_format : forall w args s vs s1, in_order w args s vs s1 -> unshadowed (lit "format") s1 ->
  exists o, formats w vs o /\ eval_expr w (ECall (lit "format") args) s = (o, s1).
Proof. exact call_format. Qed.
Print Assumptions C29_format.
Theorem C29_determined : forall w vs o o', formats w vs o -> formats w vs o' -> (forall v, o = Ok v <-> o' = Ok v) /\
  (forall e e', o = Err e -> o' = Err e' -> everr_text (e_host w) e = everr_text (e_host w) e').
Proof. exact formats_unique. Qed.
Print Assumptions C29_determined.
Example C29_example :
  view (script debug (lit "format(""{a} and { b_1 } {}"", ""{b}"", 2)")) = Some (Some (VStr (lit "{b} and 2 {}")), [], [], 0, 0) /\
  view (script debug (lit "format(""{a}"")")) = Some (None, [], [], 0, 0).
Proof. vm_compute. split; reflexivity. Qed.

(** C30 *)

Theorem C30_message : forall w n args s vs s1 template asserts msg, in_order w args s vs s1 -> mget n (c_reqs (s_ctx s1)) = Some (template, asserts) -> message_of w (s_ctx s1) template msg ->
  exists o recs pr, sent pr = 0 /\ length recs <= 1 /\
    eval_expr w (ECall n args) s =
      (o, St (Ctx (c_vars (s_ctx s1)) (c_reqs (s_ctx s1)) (c_recs (s_ctx s1) ++ recs)) (s_trace s1 ++ Sent msg :: pr)).
Proof. exact runs_request. Qed.
Print Assumptions C30_message.
Theorem C30_exists : forall w c t, exists m, message_of w c t m.
Proof. exact message_total. Qed.
Print Assumptions C30_exists.
Theorem C30_unique : forall w c t m m', message_of w c t m -> message_of w c t m' -> m = m'.
Proof. exact message_unique. Qed.
Print Assumptions C30_unique.
Example C30_example :
  sent_messages (script online (lit "let a = ""{b}""; let b = 2; request r`GET http://{a}/{ b }{nope}{1}` r()")) =
    [lit "GET http://{b}/2null{1}"].
Proof. vm_compute. reflexivity. Qed.

(** C31 *)

Theorem C31_length : forall w args s vs s1, in_order w args s vs s1 -> unshadowed (lit "length") s1 ->
  (forall t, vs = [VStr t] -> fits (Z.of_nat (length (utf8 t))) ->
     eval_expr w (ECall (lit "length") args) s = (Ok (VInt (Z.of_nat (length (utf8 t)))), s1)) /\
  (forall a, vs = [VArr a] -> fits (Z.of_nat (length a)) ->
     eval_expr w (ECall (lit "length") args) s = (Ok (VInt (Z.of_nat (length a))), s1)) /\
  (forall m, vs = [VMap m] -> fits (Z.of_nat (length m)) ->
     eval_expr w (ECall (lit "length") args) s = (Ok (VInt (Z.of_nat (length m))), s1)) /\
  (forall v, vs = [v] -> (forall t, v <> VStr t) -> (forall a, v <> VArr a) -> (forall m, v <> VMap m) ->
     exists e, eval_expr w (ECall (lit "length") args) s = (Err e, s1) /\
       everr_text (e_host w) e = lit "function length not supported type " ++ debug_value (e_host w) v) /\
  (length vs <> 1 -> exists e, eval_expr w (ECall (lit "length") args) s = (Err e, s1) /\
       everr_text (e_host w) e = lit "wrong number of arguments. got=" ++ show_nat (length vs) ++ lit ", want=1").
Proof. exact call_length. Qed.
Print Assumptions C31_length.
Theorem C31_append : forall w args s vs s1, in_order w args s vs s1 -> unshadowed (lit "append") s1 ->
  (forall a xs, vs = VArr a :: xs -> eval_expr w (ECall (lit "append") args) s = (Ok (VArr (a ++ xs)), s1)) /\
  (forall v xs, vs = v :: xs -> (forall a, v <> VArr a) -> exists e, eval_expr w (ECall (lit "append") args) s = (Err e, s1) /\
      everr_text (e_host w) e = lit "first parameter must be a array") /\
  (vs = [] -> exists e, eval_expr w (ECall (lit "append") args) s = (Err e, s1) /\
      everr_text (e_host w) e = lit "function length need a parameter").
Proof. exact call_append. Qed.
Print Assumptions C31_append.
Example C31_example :
  view (script debug (lit "let a = [1]; [length(append(a, 2, 3)), length(a), length(""" ++ [233%N] ++ lit """), length({})]")) =
    Some (Some (VArr [VInt 3; VInt 1; VInt 2; VInt 0]), [(lit "a", VArr [VInt 1])], [], 0, 0).
Proof. vm_compute. reflexivity. Qed.

(** C32 *)

Theorem C32_print : forall w args s vs s1 (line : bool), let n := if line then lit "println" else lit "print" in
  in_order w args s vs s1 -> unshadowed n s1 ->
  (forall t, formats w vs (Ok (VStr t)) ->
     eval_expr w (ECall n args) s = (Ok VNull, St (s_ctx s1) (s_trace s1 ++ [Printed (if line then t ++ [10%N] else t)]))) /\
  (forall e, formats w vs (Err e) ->
     exists e', eval_expr w (ECall n args) s = (Err e', s1) /\ everr_text (e_host w) e' = everr_text (e_host w) e).
Proof. exact call_print. Qed.
Print Assumptions C32_print.
Example C32_example :
  view (script debug (lit "print(""{x}"", 1); println(""{x}-"", 2)")) = Some (Some VNull, [], lit "12-" ++ [10%N], 0, 0) /\
  view (script debug (lit "println(""{x}-"", 2, 3)")) = Some (None, [], [], 0, 0).
Proof. vm_compute. split; reflexivity. Qed.

