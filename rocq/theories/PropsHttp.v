(** C33-C45 *)
From Coq Require Import Permutation.
From Verif Require Import SpecHttp SpecSyntax EvalExamples UrlProofs RequestProofs WireProofs ResponseProofs JsonProofs ConnectProofs HttpExamples.
Open Scope N_scope.

(** C33 *)

Theorem C33_parts : forall (n h pt : str) t (path p' : str) sch port, ~ contains scheme_sep n -> ~ In 47 h -> ~ In 58 h -> port_part pt t ->
  path_part path p' -> ~ contains scheme_sep (h ++ pt ++ path) -> scheme_named n sch -> port_value sch t port ->
  url_from (n ++ scheme_sep ++ h ++ pt ++ path) = Url sch h port p'.
Proof. exact url_pieces. Qed.
Print Assumptions C33_parts.
Theorem C33_truncated : forall (n a b : str), ~ contains scheme_sep n -> ~ contains scheme_sep a ->
  url_from (n ++ scheme_sep ++ a ++ scheme_sep ++ b) = url_from (n ++ scheme_sep ++ a).
Proof. exact url_truncated. Qed.
Print Assumptions C33_truncated.
Theorem C33_localhost : forall s, ~ contains scheme_sep s -> exists sch, scheme_named s sch /\
  url_from s = Url sch (lit "localhost") (match sch with Http => 80 | Https => 443 end) (lit "/").
Proof. exact url_localhost. Qed.
Print Assumptions C33_localhost.
Theorem C33_every : forall s, ~ contains scheme_sep s \/
  exists (n h pt : str) t (path p' tail : str) sch port,
    s = n ++ scheme_sep ++ h ++ pt ++ path ++ tail /\ ~ contains scheme_sep n /\ ~ contains scheme_sep (h ++ pt ++ path) /\
    (tail = [] \/ exists b, tail = scheme_sep ++ b) /\ ~ In 47 h /\ ~ In 58 h /\ port_part pt t /\ path_part path p' /\
    scheme_named n sch /\ port_value sch t port /\ url_from s = Url sch h port p'.
Proof. exact url_every. Qed.
Print Assumptions C33_every.
Example C33_example :
  url_from (lit "https://h.x:8443/a/b?c=d") = Url Https (lit "h.x") 8443 (lit "/a/b?c=d") /\
  url_from (lit "HTTPS://h") = Url Http (lit "h") 80 (lit "/") /\
  url_from (lit "http://h/login?next=http://other/") = Url Http (lit "h") 80 (lit "/login?next=http") /\
  url_from (lit "http://h:/a") = Url Http (lit "h") 80 (lit "/a") /\
  url_from (lit "http://h:81:82/a") = Url Http (lit "h") 80 (lit "/a") /\
  url_from (lit "http://h:65536/a") = Url Http (lit "h") 80 (lit "/a") /\
  url_from (lit "h.x/a") = Url Http (lit "localhost") 80 (lit "/").
Proof. vm_compute. repeat split. Qed.

(** C34 *)

Theorem C34_round_trip : forall s, let u := url_from s in let u' := url_from (url_text u) in
  u_scheme u' = u_scheme u /\ u_host u' = u_host u /\ u_path u' = u_path u /\
  u_port u' = (match u_scheme u with Http => 80 | Https => 443 end) /\
  (u' = u <-> u_port u = match u_scheme u with Http => 80 | Https => 443 end).
Proof. exact url_roundtrip. Qed.
Print Assumptions C34_round_trip.
Example C34_example :
  url_text (url_from (lit "http://h:8080/x")) = lit "http://h/x" /\ url_text (url_from (lit "http://h:80/x")) = lit "http://h/x" /\
  url_from (lit "http://h/x") <> url_from (lit "http://h:8080/x").
Proof. vm_compute. repeat split. discriminate. Qed.

(** C35.  [request_of] is the reading of a message; text in Rust is made of Unicode
    scalar values.  The encoding of a form body is described by C38. *)

Theorem C35_parsed : forall prepare m, scalars m -> request_of prepare m (fst (request_from prepare m)) (snd (request_from prepare m)).
Proof. exact request_sound. Qed.
Print Assumptions C35_parsed.
Theorem C35_unique : forall prepare m rq c rq' c', request_of prepare m rq c -> request_of prepare m rq' c' ->
  rq = rq' /\ (~ content_type (rq_headers rq) (Some (lit "application/x-www-form-urlencoded")) -> c = c').
Proof. exact request_unique. Qed.
Print Assumptions C35_unique.
Example C35_example : request_from (fun _ => true) message = (Request Post (Url Http (lit "h") 81 (lit "/x")) Http11
    [(lit "A", lit "b:c"); (lit "X-Y", [])] (lit "  l1l2"), CByte (lit "  l1l2")) /\ scalars message.
Proof. exact message_parsed. Qed.

(** C36.  [enc] is the encoding of a multipart body, an external crate. *)

Theorem C36_wire : forall prepare enc m rq c, scalars m -> request_from prepare m = (rq, c) ->
  wire (request_bytes enc rq c)
    (utf8 (method_name (rq_method rq) ++ lit " " ++ u_path (rq_url rq) ++ lit " " ++ version_name (rq_version rq))
       :: map (fun h => utf8 (fst h ++ lit ": " ++ snd h)) (rq_headers rq))
    (content_bytes enc c).
Proof. exact request_wire. Qed.
Print Assumptions C36_wire.
Theorem C36_read_back : forall bs ls b, wire bs ls b -> forall ls' b', wire bs ls' b' -> ls = ls' /\ b = b'.
Proof. exact wire_unique. Qed.
Print Assumptions C36_read_back.
Theorem C36_no_line_feed : forall prepare m rq c, scalars m -> request_from prepare m = (rq, c) ->
  Forall (fun x => ~ ws x) (u_path (rq_url rq)) /\
  Forall (fun h => ~ In 10 (fst h) /\ ~ In 10 (snd h) /\ ~ In 58 (fst h) /\ trimmed (fst h) (fst h) /\ trimmed (snd h) (snd h)) (rq_headers rq).
Proof. exact parsed_clean. Qed.
Print Assumptions C36_no_line_feed.
Example C36_example : let (rq, c) := request_from (fun _ => true) message in
  request_bytes (fun _ => []) rq c = utf8 (lit "POST /x HTTP/1.1" ++ [13; 10] ++ lit "A: b:c" ++ [13; 10] ++ lit "X-Y: " ++ [13; 10; 13; 10] ++ lit "  l1l2").
Proof. vm_compute. reflexivity. Qed.

(** C37.  The lines of the message are those of the template, each filled in, if no
    text filled in has a line feed ... *)

Theorem C37_lines : forall w c template msg ps, scan template ps -> message_of w c template msg ->
  Forall (fun n => ~ In 10 (shown w c n)) (holes ps) ->
  pieces 10 msg (map (fun l => fill l (map (shown w c) (holes l))) (template_lines ps)).
Proof. exact message_lines. Qed.
Print Assumptions C37_lines.
Theorem C37_line_count : forall w c template msg tls mls, message_of w c template msg ->
  (forall a p n b, template = a ++ p ++ b -> hole p n -> ~ In 10 p /\ ~ In 10 (shown w c n)) ->
  pieces 10 template tls -> pieces 10 msg mls -> length mls = length tls.
Proof. exact same_line_count. Qed.
Print Assumptions C37_line_count.
(** ... otherwise a value can add headers *)
Theorem C37_no_injection_refuted : exists text v s rec, script online text = Some (Ok v, s) /\ c_recs (s_ctx s) = [rec] /\
  exists template e asserts, parse text = Ok (Source [ELet (lit "v") (EStr e); ECall (lit "r") []] [(lit "r", (template, asserts))] []) /\
  length (lines template) = 2%nat /\
  rq_headers (r_request rec) = [(lit "A", lit "x"); (lit "Evil", lit "1")].
Proof. exact injection. Qed.
Print Assumptions C37_no_injection_refuted.
Example C37_example : exists ps, scan template_ex ps /\ holes ps = [lit "a"; lit "b"] /\ length (template_lines ps) = 3%nat /\
  Forall (fun n => ~ In 10 (shown online (Ctx [(lit "a", VStr (lit "x")); (lit "b", VInt 3)] [] []) n)) (holes ps).
Proof. exact template_example. Qed.

(** C38 *)

Theorem C38_form : forall prepare enc m rq c, scalars m -> request_from prepare m = (rq, c) ->
  content_type (rq_headers rq) (Some (lit "application/x-www-form-urlencoded")) ->
  exists t line ls rest fs kept, trimmed m t /\ text_lines t (line :: ls) /\ header_block ls (rq_headers rq) rest /\
    field_lines rest fs kept /\ Forall form_char (content_bytes enc c) /\
    form_decodes (content_bytes enc c) (map (fun f => (utf8 (fst f), utf8 (snd f))) fs).
Proof. exact form_sent. Qed.
Print Assumptions C38_form.
Theorem C38_decoded_uniquely : forall bs a b, form_decodes bs a -> form_decodes bs b -> a = b.
Proof. exact form_decodes_unique. Qed.
Print Assumptions C38_decoded_uniquely.
Example C38_example : scalars form_message /\
  content_type (rq_headers (fst (request_from (fun _ => true) form_message))) (Some (lit "application/x-www-form-urlencoded")) /\
  snd (request_from (fun _ => true) form_message) = CByte (lit "a+b=+1%262&c=%C3%A9") /\
  form_decodes (lit "a+b=+1%262&c=%C3%A9") [(lit "a b", lit " 1&2"); (lit "c", utf8 [233])].
Proof. exact form_example. Qed.

(** C39.  A stream that ends without failure is read as [response_of] says, and only
    invalid UTF-8 makes that fail; a stream that fails gives an error. *)

Theorem C39_parsed : forall bs r, response_from (Reader bs None) = inl r <-> response_of bs r.
Proof. exact response_iff. Qed.
Print Assumptions C39_parsed.
Theorem C39_invalid : forall bs, (exists e, response_from (Reader bs None) = inr e) <-> (forall s, scalars s -> utf8 s <> bs).
Proof. exact response_invalid. Qed.
Print Assumptions C39_invalid.
Theorem C39_broken : forall bs t, exists u, response_from (Reader bs (Some t)) = inr (ReadFailed u) /\
  (u = t \/ (u = lit "stream did not contain valid UTF-8" /\ forall s, scalars s -> utf8 s <> bs)).
Proof. exact response_broken. Qed.
Print Assumptions C39_broken.
Example C39_example :
  response_from (Reader (utf8 (lit "HTTP/1.1 404 Not Found" ++ [13; 10] ++ lit "A: b:c" ++ [13; 10] ++ lit "junk" ++ [10; 13; 10] ++ [233; 10] ++ lit "x")) None) =
    inl (Response (lit "HTTP/1.1") 404 (lit "Not") [(lit "A", lit "b:c")] ([233; 10] ++ lit "x")) /\
  response_from (Reader (utf8 (lit "HTTP/1.1 200 OK") ++ [10; 255]) None) = inr (ReadFailed (lit "stream did not contain valid UTF-8")).
Proof. vm_compute. split; reflexivity. Qed.

(** C40 *)

Theorem C40_entries : forall h r m, to_map h r = Ok m ->
  mget (lit "version") m = Some (VStr (rs_version r)) /\ mget (lit "status") m = Some (VInt (Z.of_N (rs_status r))) /\
  mget (lit "reason") m = Some (VStr (rs_reason r)) /\ mget (lit "body") m = Some (VStr (rs_body r)) /\
  (exists hm, mget (lit "headers") m = Some (VMap hm) /\
     forall n, mget n hm = match values_of n (rs_headers r) with [] => None | vs => Some (VArr (map VStr vs)) end) /\
  (forall n, ~ In n response_names -> mget n m = None).
Proof. exact to_map_entries. Qed.
Print Assumptions C40_entries.
Theorem C40_json : forall h r m, to_map h r = Ok m ->
  (forall v, mget (lit "json") m = Some v <-> exists src e es, parse (rs_body r) = Ok src /\ s_exprs src = e :: es /\ v = expr_eval h e).
Proof. exact to_map_json. Qed.
Print Assumptions C40_json.
Example C40_example : forall h, exists m hm,
  to_map h (Response (lit "HTTP/1.1") 200 (lit "OK") [(lit "A", lit "1"); (lit "B", lit "2"); (lit "A", lit "3")] (lit "x")) = Ok m /\
  mget (lit "headers") m = Some (VMap hm) /\ mget (lit "A") hm = Some (VArr [VStr (lit "1"); VStr (lit "3")]).
Proof. intros h. do 2 eexists. vm_compute. repeat split. Qed.

(** C41 *)

Theorem C41_json : forall h r t, json (rs_body r) t -> exists m v, to_map h r = Ok m /\ mget (lit "json") m = Some v /\ denotes t v.
Proof. exact json_body. Qed.
Print Assumptions C41_json.
Example C41_example : json (rs_body json_response) (JObj [(lit "a", JArr [JInt 1; JNeg]); (lit "b", JNull); (lit "a", JStr (lit "x"))]) /\
  forall h, exists m, to_map h json_response = Ok m /\ mget (lit "json") m = Some (VMap [(lit "a", VStr (lit "x")); (lit "b", VNull)]).
Proof. exact json_example. Qed.
(** escaped quotes and exponents are outside of what is understood *)
Theorem C41_all_json_refuted : forall h v reason hs,
  (exists m, to_map h (Response v 200 reason hs (lit "{""a"": ""x\""y""}")) = Ok m /\ mget (lit "json") m = None) /\
  (exists m, to_map h (Response v 200 reason hs (lit "1e5")) = Ok m /\ mget (lit "json") m = Some (VInt 1)) /\
  (exists m, to_map h (Response v 200 reason hs (lit "-5")) = Ok m /\ mget (lit "json") m = Some VNull).
Proof. exact json_limits. Qed.
Print Assumptions C41_all_json_refuted.

(** C42 *)

Theorem C42_hangs : forall h r a n b rest, rs_body r = a ++ n ++ b ++ 33 :: rest -> blank a -> spells n (Tok KIdent n) -> blank b -> (forall x, rest <> 61 :: x) ->
  to_map h r = Diverge.
Proof. exact body_hangs. Qed.
Print Assumptions C42_hangs.
Theorem C42_never_ends : forall h r, to_map h r = Diverge <-> forall n, parse_fuel n (segment (rs_body r)) = PFuel.
Proof. exact body_diverges. Qed.
Print Assumptions C42_never_ends.
Theorem C42_terminates : forall h r, no_bang (segment (rs_body r)) -> exists m, to_map h r = Ok m.
Proof. exact body_terminates. Qed.
Print Assumptions C42_terminates.
Example C42_example : (forall h, to_map h (Response [] 200 [] [] (lit "Hello! World")) = Diverge) /\
  SpecSyntax.no_bang (segment (lit "Hello, World!=? { !important }")).
Proof. exact bang_example. Qed.

(** C43 *)

Theorem C43_outcome : forall prepare x m, ordered x -> exists t,
  client_send prepare x m = Ok (fst (request_from prepare m),
    match x_connect x, x_write x, response_from (x_reply x) with inl _, None, inl rs => rs | _, _, _ => default_response end, t,
    match x_connect x, x_write x, response_from (x_reply x) with
    | inr e, _, _ => report e | inl _, Some e, _ => report e | inl _, None, inr e => report e | inl _, None, inl _ => []
    end) /\
  t_start t = x_wall0 x /\
  (forall d rs, x_connect x = inl d -> x_write x = None -> response_from (x_reply x) = inl rs ->
    t_end t = x_wall1 x /\ t_total t = x_done x - x_start x /\ t_resolve t = d /\ t_connect t = x_connected x - x_start x - d /\
    t_delay t = x_first x - x_read x /\ t_read t = x_read_done x - x_first x /\
    t_total t = t_resolve t + t_connect t + t_write t + t_delay t + t_read t) /\
  (~ (exists d rs, x_connect x = inl d /\ x_write x = None /\ response_from (x_reply x) = inl rs) ->
    t_end t = x_wall0 x /\ t_total t = 0 /\ t_write t = 0 /\ t_read t = 0 /\
    match x_connect x with
    | inl d => t_resolve t = d /\ t_connect t = x_connected x - x_start x - d /\
        (x_write x <> None \/ rd_bytes (x_reply x) = [] /\ rd_end (x_reply x) <> None -> t_delay t = 0) /\
        (x_write x = None -> rd_bytes (x_reply x) <> [] \/ rd_end (x_reply x) = None -> t_delay t = x_first x - x_read x)
    | inr _ => t_resolve t = 0 /\ t_connect t = 0 /\ t_delay t = 0
    end).
Proof. exact send_outcome. Qed.
Print Assumptions C43_outcome.
Example C43_example : ordered up /\ exists rs t, client_send (fun _ => true) up (lit "GET http://h/") = Ok (fst (request_from (fun _ => true) (lit "GET http://h/")), rs, t, []) /\
  rs_status rs = 200 /\ t_total t = 10 /\ t_write t = 2.
Proof. exact send_example. Qed.
(** a clock that goes back aborts the run *)
Example C43_ordered_needed : exists prepare x m, client_send prepare x m = Panic.
Proof. exact clock_back. Qed.

(** C44 *)

Theorem C44_order : forall addrs, Permutation (attempt_order addrs) addrs /\
  filter a_v6 (attempt_order addrs) = filter a_v6 addrs /\
  filter (fun a => negb (a_v6 a)) (attempt_order addrs) = filter (fun a => negb (a_v6 a)) addrs /\
  (forall i, (i < length (filter a_v6 addrs))%nat -> (i < length (filter (fun a => negb (a_v6 a)) addrs))%nat ->
     nth_error (attempt_order addrs) (2 * i) = nth_error (filter a_v6 addrs) i /\
     nth_error (attempt_order addrs) (2 * i + 1) = nth_error (filter (fun a => negb (a_v6 a)) addrs) i).
Proof. exact attempts_order. Qed.
Print Assumptions C44_order.
Example C44_example : map a_id (attempt_order [Addr 1 false; Addr 2 false; Addr 3 true; Addr 4 false; Addr 5 true]) = [3; 1; 5; 2; 4].
Proof. vm_compute. reflexivity. Qed.

(** C45.  [steps ok c c']: the attempts, threads and timeouts can bring [c] to [c'];
    whatever they do, a result is returned after finitely many steps. *)
Theorem C45_result : forall ok addrs r, steps ok (conn_start ok addrs) (Returned r) ->
  match r with
  | inl a => In a addrs /\ ok a = true
  | inr e => Forall (fun a => ok a = false) addrs /\
      (addrs = [] -> e = NoConnectionAvailable) /\ (addrs <> [] -> e = TcpConnectFailed)
  end.
Proof. exact race_result. Qed.
Print Assumptions C45_result.
Theorem C45_goes_on : forall ok c, ~ is_returned c -> exists c', conn_step ok c c'.
Proof. exact race_goes_on. Qed.
Print Assumptions C45_goes_on.
Theorem C45_ends : forall ok c, Acc (fun c' c => conn_step ok c c') c.
Proof. exact race_ends. Qed.
Print Assumptions C45_ends.
Example C45_example : exists r, steps (fun a => a_id a =? 3) (conn_start (fun a => a_id a =? 3) [Addr 1 false; Addr 2 true; Addr 3 true]) (Returned r).
Proof. exact race_example. Qed.

