(** C68-C77 *)
From Verif Require Import SpecRun SpecReads SpecSafe SpecCombine SpecWritten SpecSend SpecValue ReadsProofs SafeProofs CombineProofs BackProofs WrittenProofs SendProofs
  ValueExamples EvalExamples NewExamples.
Open Scope N_scope.

(** C68.  Two evaluations that find the same definitions and values where they look
    have the same outcome, the same effects and the same records. *)

Theorem C68_expression : forall w e s1 s2, look_alike e s1 s2 -> exists o tr recs v1 v2,
  eval_expr w e s1 = (o, St (Ctx v1 (c_reqs (s_ctx s1)) (c_recs (s_ctx s1) ++ recs)) (s_trace s1 ++ tr)) /\
  eval_expr w e s2 = (o, St (Ctx v2 (c_reqs (s_ctx s2)) (c_recs (s_ctx s2) ++ recs)) (s_trace s2 ++ tr)) /\
  moved_alike (c_vars (s_ctx s1)) v1 (c_vars (s_ctx s2)) v2.
Proof. exact reads_only. Qed.
Print Assumptions C68_expression.
Theorem C68_block : forall w es s1 s2, s_trace s1 = s_trace s2 ->
  (forall e, In e es -> forall r, In r (called e) -> mget r (c_reqs (s_ctx s1)) = mget r (c_reqs (s_ctx s2))) ->
  (forall e n, In e es -> reads (c_reqs (s_ctx s1)) e n -> mget n (c_vars (s_ctx s1)) = mget n (c_vars (s_ctx s2))) ->
  exists o tr recs v1 v2,
  eval_block w es s1 = (o, St (Ctx v1 (c_reqs (s_ctx s1)) (c_recs (s_ctx s1) ++ recs)) (s_trace s1 ++ tr)) /\
  eval_block w es s2 = (o, St (Ctx v2 (c_reqs (s_ctx s2)) (c_recs (s_ctx s2) ++ recs)) (s_trace s2 ++ tr)) /\
  moved_alike (c_vars (s_ctx s1)) v1 (c_vars (s_ctx s2)) v2.
Proof. exact block_reads_only. Qed.
Print Assumptions C68_block.
Example C68_example : let e := EBin (op KAdd "+") (EIdent (lit "a")) (ECall (lit "get") []) in
  let s x := St (Ctx [(lit "a", VInt 1); (lit "b", x); (lit "h", VStr (lit "h"))] [(lit "get", (lit "GET http://{h}/", []))] []) [] in
  look_alike e (s (VInt 2)) (s VNull) /\ s (VInt 2) <> s VNull /\ ~ SpecReads.reads (c_reqs (s_ctx (s VNull))) e (lit "b").
Proof. exact reads_example. Qed.

(** C69 *)

Theorem C69_block : forall w es s, readable_bodies w -> fst (eval_block w es s) <> Diverge.
Proof. exact evaluation_ends. Qed.
Print Assumptions C69_block.
Theorem C69_expression : forall w e s, readable_bodies w -> fst (eval_expr w e s) <> Diverge.
Proof. exact expression_ends. Qed.
Print Assumptions C69_expression.
(** C69 without the hypothesis on the bodies *)
Theorem C69_body_loops_refuted : exists w es s, steady w /\ fst (eval_block w es s) = Diverge.
Proof. exact (ex_intro _ loud (ex_intro _ _ (ex_intro _ _ (conj (proj1 loud_loops) (proj2 (proj2 loud_loops)))))). Qed.
Print Assumptions C69_body_loops_refuted.

Example C69_example : readable_bodies online.
Proof. exact (proj1 (proj2 safe_example)). Qed.

(** C70 *)

Theorem C70_no_abort : forall w es s, steady w -> Forall (no_risk (h_checks (e_host w))) es -> no_risk_requests (h_checks (e_host w)) s ->
  fst (eval_block w es s) <> Panic.
Proof. exact never_aborts. Qed.
Print Assumptions C70_no_abort.
Theorem C70_returns : forall w es s, steady w -> readable_bodies w -> Forall (no_risk (h_checks (e_host w))) es -> no_risk_requests (h_checks (e_host w)) s ->
  returns (fst (eval_block w es s)).
Proof. exact returns_always. Qed.
Print Assumptions C70_returns.
(** C70, every operator left out can indeed abort *)

Theorem C70_operators_refuted : forall checks k, In k (risky_binary checks) -> exists l r, fst (eval_expr (some_env checks) (EBin (Tok k []) l r) empty_state) = Panic.
Proof. exact risk_real. Qed.
Print Assumptions C70_operators_refuted.
Example C70_example : steady online /\ readable_bodies online /\ no_risk true (EBin (op KEq "==") (EIdent (lit "a")) (ECall (lit "get") [])) /\
  no_risk_requests true (St (Ctx [] [(lit "get", (lit "GET http://h/", [EBin (op KLt "<") (EIdent (lit "status")) (EInt 300)]))] []) []).
Proof. exact safe_example. Qed.

(** C71 *)

Theorem C71_files : forall files, Forall self_contained files -> exists srcs src,
  Forall2 (fun f s => parse f = Ok s) files srcs /\ parse (List.concat files) = Ok src /\ merged srcs src.
Proof. exact files_merge. Qed.
Print Assumptions C71_files.
Theorem C71_directory : forall name n l ts, distinct_names n -> listable n -> sources [name] n l -> Forall2 (fun x t => scalars t /\ snd x = Some (utf8 t)) l ts ->
  Forall self_contained ts -> exists text srcs src,
  read_node name n = Some text /\ Forall2 (fun f s => parse f = Ok s) ts srcs /\ parse text = Ok src /\ merged srcs src.
Proof. exact directory_merge. Qed.
Print Assumptions C71_directory.
(** C71 without the hypothesis on the files *)

Theorem C71_any_files_refuted : exists a b sa sb s, parse (a ++ [10]) = Ok sa /\ parse (b ++ [10]) = Ok sb /\
  parse (a ++ [10] ++ b ++ [10]) = Ok s /\ ~ merged [sa; sb] s.
Proof. exact files_interfere. Qed.
Print Assumptions C71_any_files_refuted.
Example C71_example : self_contained (lit "let a = b;" ++ [10]) /\ self_contained (lit "request r `GET http://h/` test t { a }" ++ [10; 10]).
Proof. exact self_example. Qed.

(** C72 *)

Theorem C72_balanced : forall text src, parse text = Ok src -> exists w, segment text = w ++ [Tok KEof []] /\ balanced w /\
  Forall (fun t => tkind t <> KIllegal) w.
Proof. exact accepted_balanced. Qed.
Print Assumptions C72_balanced.
Theorem C72_count : forall w, balanced w -> forall o c, In (o, c) matching -> many o w = many c w /\
  (forall a b, w = a ++ b -> (many c a <= many o a)%nat).
Proof. exact balanced_count. Qed.
Print Assumptions C72_count.
Example C72_example : exists src, parse (lit "f([1, {""a"": (2)}])") = Ok src /\ parse (lit "f([1)]") <> parse (lit "f([1])") /\
  forall src', parse (lit "f([1)]") <> Ok src'.
Proof. eexists. split; [vm_compute; reflexivity|]. split; vm_compute; intros; discriminate. Qed.

(** C73 *)

Theorem C73_integer : forall w z s, (- 2 ^ 63 < z < 2 ^ 63)%Z -> exists src, parse (show_value (e_host w) (VInt z)) = Ok src /\
  s_requests src = [] /\ s_tests src = [] /\ eval_block w (s_exprs src) s = (Ok (VInt z), s).
Proof. exact show_eval. Qed.
Print Assumptions C73_integer.
Theorem C73_float : forall w f s, binary64 f -> has_fraction f -> exists src, parse (show_value (e_host w) (VFloat f)) = Ok src /\
  s_requests src = [] /\ s_tests src = [] /\ eval_block w (s_exprs src) s = (Ok (VFloat f), s).
Proof. exact show_float_eval. Qed.
Print Assumptions C73_float.
Theorem C73_bool : forall w b s, exists src, parse (show_value (e_host w) (VBool b)) = Ok src /\
  s_requests src = [] /\ s_tests src = [] /\ eval_block w (s_exprs src) s = (Ok (VBool b), s).
Proof. exact show_bool_eval. Qed.
Print Assumptions C73_bool.
(** C73, the smallest integer does not read back *)

Theorem C73_smallest_refuted : forall h, exists e, parse (show_value h (VInt (- 2 ^ 63))) = Err e.
Proof. exact show_min_lost. Qed.
Print Assumptions C73_smallest_refuted.
(** C73, a whole float reads back as an integer *)

Theorem C73_whole_refuted : forall w s, exists f src, binary64 f /\ parse (show_value (e_host w) (VFloat f)) = Ok src /\ eval_block w (s_exprs src) s = (Ok (VInt 1), s).
Proof. exact show_whole_lost. Qed.
Print Assumptions C73_whole_refuted.
Example C73_example : show_value (e_host debug) (VInt (-40)) = lit "-40" /\ (- 2 ^ 63 < -40 < 2 ^ 63)%Z /\
  exists f, parse_f64 (lit "2.5") = Some f /\ binary64 f /\ has_fraction f /\ show_value (e_host debug) (VFloat f) = lit "2.5".
Proof.
  split; [reflexivity|]. split; [lia|]. exists (S754_finite false 5629499534213120 (-51)). split; [vm_compute; reflexivity|]. split; [cbn; lia|].
  split; [|vm_compute; reflexivity]. eexists. split; [reflexivity|]. intros z Q. unfold scaled, QArith_base.Qeq in Q. cbn in Q. lia.
Qed.

(** C74 *)

Theorem C74_read : forall prepare a b me address ve indent gap hs body ct, blank a -> blank b -> address <> [] -> Forall (fun c => ~ ws c) address -> spaces indent -> spaces gap ->
  Forall plain_header hs -> plain_body body -> content_type hs ct ->
  ct <> Some (lit "application/x-www-form-urlencoded") -> ct <> Some (lit "multipart/form-data") ->
  request_of prepare (a ++ written me address ve indent gap hs body ++ b)
    (Request me (url_from address) ve hs (List.concat body))
    (match body with [] => CEmpty | _ => CByte (utf8 (List.concat body)) end).
Proof. exact written_request. Qed.
Print Assumptions C74_read.
Theorem C74_sent : forall prepare enc a b me address ve indent gap hs body ct, blank a -> blank b -> address <> [] -> Forall (fun c => ~ ws c) address -> spaces indent -> spaces gap ->
  Forall plain_header hs -> plain_body body -> content_type hs ct ->
  ct <> Some (lit "application/x-www-form-urlencoded") -> ct <> Some (lit "multipart/form-data") ->
  let m := a ++ written me address ve indent gap hs body ++ b in scalars m ->
  fst (request_from prepare m) = Request me (url_from address) ve hs (List.concat body) /\
  request_bytes enc (fst (request_from prepare m)) (snd (request_from prepare m)) =
    utf8 (head_sent me (u_path (url_from address)) ve hs ++ List.concat body).
Proof. exact written_sent. Qed.
Print Assumptions C74_sent.
Example C74_example : let hs := [(lit "Host", lit "a.b"); (lit "X-Id", lit "1:2")] in let body := [lit "{""n"":"; lit "  1}"] in
  Forall plain_header hs /\ plain_body body /\ content_type hs None /\ spaces (lit "    ") /\
  SpecWritten.written Post (lit "https://a.b/c?d") Http11 (lit "    ") [] hs body =
    lit "POST https://a.b/c?d HTTP/1.1" ++ [10] ++ lit "    Host: a.b" ++ [10] ++ lit "    X-Id: 1:2" ++ [10; 10] ++ lit "{""n"":" ++ [10] ++ lit "  1}".
Proof. exact written_example. Qed.

(** C75.  [answers] is what the connection does at each write, [cap] the size of
    the buffer; None is a write that never returns. *)

Theorem C75_prefix : forall cap flushes answers ps body o bs, request_write cap flushes answers ps body = (o, bs) ->
  starts_with bs (whole ps body) /\ (o = Some None -> bs = whole ps body /\ intact body).
Proof. exact write_prefix. Qed.
Print Assumptions C75_prefix.
Theorem C75_goes_through : forall cap answers ps body, intact body -> Forall willing answers -> (length (whole ps body) <= length (filter takes answers))%nat ->
  request_write cap true answers ps body = (Some None, whole ps body).
Proof. exact write_goes. Qed.
Print Assumptions C75_goes_through.
Theorem C75_failure : forall cap flushes answers ps body e bs, request_write cap flushes answers ps body = (Some (Some e), bs) ->
  match e with
  | WriteFailed t => refusal t answers \/ cut_short t body
  | WriteFlushFailed => flushes = false \/ exists t, refusal t answers
  | _ => False
  end.
Proof. exact write_failure. Qed.
Print Assumptions C75_failure.
Theorem C75_unreadable : forall cap flushes answers ps body, ~ intact body -> forall bs, request_write cap flushes answers ps body <> (Some None, bs).
Proof. exact write_cut. Qed.
Print Assumptions C75_unreadable.
Theorem C75_one_write : forall encode r c n, (forall ps, c <> CMultipart ps) -> let bs := request_bytes encode r c in (length bs <= n)%nat ->
  (N.of_nat (length bs) <= 8192 -> request_write buf_capacity true [Took n] (request_pieces r c) None = (Some None, bs)) /\
  (8192 < N.of_nat (length bs) -> exists taken, request_write buf_capacity true [Took n] (request_pieces r c) None = (None, taken)).
Proof. exact request_once. Qed.
Print Assumptions C75_one_write.
Theorem C75_multipart : forall r ps c cs f n, let head := utf8 (request_head r) in N.of_nat (length head) <= 8192 -> (length head <= n)%nat -> c <> [] ->
  request_write buf_capacity true [Took n] (request_pieces r (CMultipart ps)) (Some (Copied (c :: cs) f)) = (None, head).
Proof. exact request_apart. Qed.
Print Assumptions C75_multipart.
(** C75, a reported failure does not mean that the server did not get the request *)

Theorem C75_failure_lost_refuted : exists flushes answers ps e, ps <> [] /\
  request_write buf_capacity flushes answers ps None = (Some (Some e), List.concat ps).
Proof. exact write_failure_complete. Qed.
Print Assumptions C75_failure_lost_refuted.
Example C75_example : Forall willing slow /\ request_write buf_capacity true (slow ++ slow) [lit "GET /"; lit " HTTP/1.1"] None = (Some None, lit "GET / HTTP/1.1") /\
  request_write buf_capacity true (slow ++ slow) [lit "GET /"; lit " HTTP/1.1"] (Some (Copied [lit "-"] (Some (lit "gone")))) = (Some (Some (WriteFailed (lit "gone"))), lit "GET / HTTP/1.1-") /\
  request_write 4 true [Took 3; Failed (lit "reset")] [lit "GET /"; lit " HTTP/1.1"] None = (Some (Some (WriteFailed (lit "reset"))), lit "GET").
Proof. split; [exact slow_willing|]. repeat split; vm_compute; reflexivity. Qed.

(** C76 *)

Theorem C76_connect : forall n u r, connect n u r ->
  match r with
  | inl (t, a) => t = transport_for u /\ exists addrs, nw_resolve n (u_host u) (u_port u) = Some addrs /\ In a addrs /\ nw_accepts n a = true
  | inr e => unconnected n u e
  end.
Proof. exact connect_outcome. Qed.
Print Assumptions C76_connect.
Theorem C76_encrypted : forall n u t a, connect n u (inl (t, a)) -> u_scheme u = Https -> t = Cipher (u_host u).
Proof. exact never_in_clear. Qed.
Print Assumptions C76_encrypted.
Theorem C76_ends : forall n u, exists r, connect n u r.
Proof. exact connect_finishes. Qed.
Print Assumptions C76_ends.
Example C76_example : connect net (Url Https (lit "h") 443 (lit "/")) (inl (Cipher (lit "h"), Addr 2 false)).
Proof. exact net_connects. Qed.

Example C76_example2 : connect (Network (fun _ _ => Some []) (fun _ => true) (fun _ => true) (fun _ => true) (fun _ => true)) (Url Http (lit "h") 80 (lit "/")) (inr NoConnectionAvailable).
Proof. exact net_fails. Qed.

(** C77 *)

Theorem C77_seen : forall n encode r c x l, happens n encode r c x l ->
  (l = [] /\ exists e, x_connect x = inr e /\ unconnected n (rq_url r) e) \/
  exists a addrs bs, l = [Opened (transport_for (rq_url r)) a; Received bs] /\
    nw_resolve n (u_host (rq_url r)) (u_port (rq_url r)) = Some addrs /\ In a addrs /\ nw_accepts n a = true /\
    starts_with bs (request_bytes (fun ps => List.concat (cp_chunks (encode ps))) r c) /\
    (x_write x = None -> bs = request_bytes (fun ps => List.concat (cp_chunks (encode ps))) r c).
Proof. exact exchange_seen. Qed.
Print Assumptions C77_seen.
Theorem C77_answered : forall n encode prepare m x l rq rs t er, happens n encode (fst (request_from prepare m)) (snd (request_from prepare m)) x l ->
  client_send prepare x m = Ok (rq, rs, t, er) -> rs <> response_default ->
  exists a addrs, l = [Opened (transport_for (rq_url rq)) a; Received (request_bytes (fun ps => List.concat (cp_chunks (encode ps))) rq (snd (request_from prepare m)))] /\
    nw_resolve n (u_host (rq_url rq)) (u_port (rq_url rq)) = Some addrs /\ In a addrs /\ nw_accepts n a = true.
Proof. exact answered_received. Qed.
Print Assumptions C77_answered.
Example C77_example : let r := Request Get (Url Https (lit "h") 443 (lit "/")) Http11 [] [] in
  happens net (fun _ => Copied [] None) r CEmpty up [Opened (Cipher (lit "h")) (Addr 2 false); Received (lit "GET / HTTP/1.1" ++ [13; 10; 13; 10])].
Proof. exact net_happens. Qed.

