(** Concrete messages and responses *)
From Verif Require Import SpecHttp SpecSyntax EvalExamples TextProofs TemplateProofs RequestProofs DisplayProofs JsonProofs ConnectProofs ParserExamples ParserTermination.
Open Scope N_scope.

Lemma all_scalars s : forallb is_scalar s = true -> scalars s.
Proof. intros F. apply Forall_forall. intros c I. rewrite forallb_forall in F. apply (F c I). Qed.
Definition message : str := lit "
  POST http://h:81/x  HTTP/7" ++ [10] ++ lit "   A :  b:c " ++ [13; 10] ++ lit "nonsense" ++ [10] ++ lit "X-Y:" ++ [10; 32; 10] ++ lit "  l1" ++ [10] ++ lit "l2" ++ [10; 32].
Lemma message_parsed : request_from (fun _ => true) message = (Request Post (Url Http (lit "h") 81 (lit "/x")) Http11
    [(lit "A", lit "b:c"); (lit "X-Y", [])] (lit "  l1l2"), CByte (lit "  l1l2")) /\ scalars message.
Proof.
  split; [vm_compute; reflexivity|]. apply all_scalars. vm_compute. reflexivity.
Qed.

Definition template_ex : str := lit "GET http://{ a }/" ++ [10] ++ lit "B: {b}{1}" ++ [10] ++ lit "{".
Lemma lit_by_match c s : match_here (c :: s) = None -> forall p n r, hole p n -> c :: s <> p ++ r.
Proof. intros M p n r H E. rewrite E, (match_hole p n r H) in M. discriminate. Qed.
Fixpoint scan_of (fuel : nat) (s : str) : list piece :=
  match fuel, s with
  | S f, c :: s' => match match_here s with Some len => Hole (trim (slice s 1 (len - 1))) :: scan_of f (skipn len s) | None => Lit c :: scan_of f s' end
  | _, _ => []
  end.
Lemma template_example : exists ps, scan template_ex ps /\ holes ps = [lit "a"; lit "b"] /\ length (template_lines ps) = 3%nat /\
  Forall (fun n => ~ In 10 (shown online (Ctx [(lit "a", VStr (lit "x")); (lit "b", VInt 3)] [] []) n)) (holes ps).
Proof.
  destruct (scan_exists template_ex) as [ps S]. assert (E : ps = scan_of 60 template_ex).
  { apply (scan_unique _ _ S). vm_compute scan_of. unfold template_ex. vm_compute app.
    repeat (first [apply sc_nil | apply sc_lit; [apply lit_by_match; vm_compute; reflexivity|]
      | match goal with |- scan (123 :: 32 :: 97 :: 32 :: 125 :: ?r) _ => apply (sc_hole [123; 32; 97; 32; 125] [97] r) end
      | match goal with |- scan (123 :: 98 :: 125 :: ?r) _ => apply (sc_hole [123; 98; 125] [98] r) end]).
    - split; [exists 97, []; repeat split; [right; left; split; discriminate|constructor]|]. exists [32], [32]. repeat split.
      + constructor; [apply is_ws_iff; reflexivity|constructor].
      + constructor; [apply is_ws_iff; reflexivity|constructor].
    - split; [exists 98, []; repeat split; [right; left; split; discriminate|constructor]|]. exists [], []. repeat split; constructor. }
  exists ps. split; auto. subst ps. split; [vm_compute; reflexivity|]. split; [vm_compute; reflexivity|].
  change (holes (scan_of 60 template_ex)) with [lit "a"; lit "b"].
  repeat constructor; vm_compute; intros I; repeat (destruct I as [I|I]; try discriminate); auto.
Qed.

Lemma injection : exists text v s rec, script online text = Some (Ok v, s) /\ c_recs (s_ctx s) = [rec] /\
  exists template e asserts, parse text = Ok (Source [ELet (lit "v") (EStr e); ECall (lit "r") []] [(lit "r", (template, asserts))] []) /\
  length (lines template) = 2%nat /\
  rq_headers (r_request rec) = [(lit "A", lit "x"); (lit "Evil", lit "1")].
Proof.
  exists (lit "let v = ""x" ++ [10] ++ lit "Evil: 1""; request r`GET http://h/" ++ [10] ++ lit "A: {v}` r()").
  do 3 eexists. split; [vm_compute; reflexivity|]. split; [vm_compute; reflexivity|]. do 3 eexists. split; [vm_compute; reflexivity|].
  split; vm_compute; reflexivity.
Qed.

Definition form_message : str := lit "POST http://h/" ++ [10] ++ lit "CONTENT-TYPE: application/x-www-form-urlencoded" ++ [10; 10] ++
  lit " a b: 1&2" ++ [10] ++ lit "none" ++ [10] ++ lit "c:" ++ [233].
Lemma form_example : scalars form_message /\
  content_type (rq_headers (fst (request_from (fun _ => true) form_message))) (Some (lit "application/x-www-form-urlencoded")) /\
  snd (request_from (fun _ => true) form_message) = CByte (lit "a+b=+1%262&c=%C3%A9") /\
  form_decodes (lit "a+b=+1%262&c=%C3%A9") [(lit "a b", lit " 1&2"); (lit "c", utf8 [233])].
Proof.
  split; [apply all_scalars; vm_compute; reflexivity|]. split; [apply (first_type_spec (rq_headers (fst (request_from (fun _ => true) form_message))))|]. split; [vm_compute; reflexivity|].
  pose proof (form_decode_pairs [(lit "a b", lit " 1&2"); (lit "c", [233])]) as P.
  replace (lit "a+b=+1%262&c=%C3%A9") with (form_pairs [(lit "a b", lit " 1&2"); (lit "c", [233])]) by (vm_compute; reflexivity).
  apply P. repeat constructor.
Qed.

Definition json_response : response := Response (lit "HTTP/1.1") 200 (lit "OK") [] (lit " { ""a"" : [1, -2.5] ,""b"":null, ""a"": ""x""}" ++ [10]).
Lemma json_example : json (rs_body json_response) (JObj [(lit "a", JArr [JInt 1; JNeg]); (lit "b", JNull); (lit "a", JStr (lit "x"))]) /\
  forall h, exists m, to_map h json_response = Ok m /\ mget (lit "json") m = Some (VMap [(lit "a", VStr (lit "x")); (lit "b", VNull)]).
Proof.
  assert (B : blank [32]) by (constructor; [apply is_ws_iff; reflexivity|constructor]).
  assert (P : forall s, forallb (fun c => negb ((c =? 34) || (c =? 92))) s = true -> plain s).
  { intros s F. rewrite forallb_forall in F. split; intros I; apply F in I; discriminate. }
  split; [|intros h; eexists; split; reflexivity].
  apply (js_blank [32] (lit "{ ""a"" : [1, -2.5] ,""b"":null, ""a"": ""x""}") [10]); [exact B|constructor; [apply is_ws_iff; reflexivity|constructor]|].
  apply (js_object (lit " ""a"" : [1, -2.5] ,""b"":null, ""a"": ""x""")).
  apply (jm_more [32] (lit "a") [32] (lit " [1, -2.5] ") _ (lit """b"":null, ""a"": ""x""")); auto.
  - apply (js_blank [32] (lit "[1, -2.5]") [32]); auto. apply (js_array (lit "1, -2.5")). apply (ji_more (lit "1") (JInt 1) (lit " -2.5")).
    + apply js_number. apply (nb_int (lit "1")); [discriminate|repeat constructor; discriminate|reflexivity].
    + apply ji_last. apply (js_blank [32] (lit "-2.5") []); auto; [constructor|].
      destruct (parse_f64 (lit "2.5")) as [f|] eqn:F; [|vm_compute in F; discriminate]. apply FloatLiteral.parse_f64_iff in F.
      apply (js_negative (lit "2.5") (JFrac f)). apply (nb_frac (lit "2") (lit "5")); auto; try discriminate; repeat constructor; discriminate.
  - apply (jm_more [] (lit "b") [] (lit "null") _ (lit " ""a"": ""x""")); [apply Forall_nil|apply P; reflexivity|apply Forall_nil|apply js_null|].
    apply (jm_last [32] (lit "a") [] (lit " ""x""")); auto; [constructor|].
    apply (js_blank [32] (lit """x""") []); auto; [constructor|]. apply (js_string (lit "x")). apply P. reflexivity.
Qed.
Lemma json_limits : forall h v reason hs,
  (exists m, to_map h (Response v 200 reason hs (lit "{""a"": ""x\""y""}")) = Ok m /\ mget (lit "json") m = None) /\
  (exists m, to_map h (Response v 200 reason hs (lit "1e5")) = Ok m /\ mget (lit "json") m = Some (VInt 1)) /\
  (exists m, to_map h (Response v 200 reason hs (lit "-5")) = Ok m /\ mget (lit "json") m = Some VNull).
Proof.
  intros h v reason hs. repeat split.
  - unfold to_map. cbn [rs_body]. assert (E : exists e, parse (lit "{""a"": ""x\""y""}") = Err e) by (eexists; vm_compute; reflexivity). destruct E as [e ->].
    eexists. split; reflexivity.
  - unfold to_map. cbn [rs_body]. assert (E : parse (lit "1e5") = Ok (Source [EInt 1; EIdent (lit "e5")] [] [])) by (vm_compute; reflexivity). rewrite E.
    eexists. split; reflexivity.
  - unfold to_map. cbn [rs_body]. assert (E : parse (lit "-5") = Ok (Source [EUn (op KSub "-") (EInt 5)] [] [])) by (vm_compute; reflexivity). rewrite E.
    eexists. split; reflexivity.
Qed.
Lemma bang_example : (forall h, to_map h (Response [] 200 [] [] (lit "Hello! World")) = Diverge) /\
  SpecSyntax.no_bang (segment (lit "Hello, World!=? { !important }")).
Proof.
  split; [|apply no_bangb_ok; vm_compute; reflexivity].
  intros h. unfold to_map. cbn [rs_body]. assert (E : parse (lit "Hello! World") = Diverge) by (vm_compute; reflexivity). now rewrite E.
Qed.
Lemma send_example : ordered up /\ exists rs t, client_send (fun _ => true) up (lit "GET http://h/") = Ok (fst (request_from (fun _ => true) (lit "GET http://h/")), rs, t, []) /\
  rs_status rs = 200 /\ t_total t = 10 /\ t_write t = 2.
Proof.
  split; [cbn; repeat split; try (vm_compute; discriminate); intros d [= <-]; vm_compute; discriminate|].
  do 2 eexists. split; [vm_compute; reflexivity|]. vm_compute. repeat split.
Qed.
Lemma clock_back : exists prepare x m, client_send prepare x m = Panic.
Proof.
  exists (fun _ => true), (Exchange 0 5 (inl 1) 5 None 4 5 (Reader reply None) 9 10 11), (lit "GET http://h/"). vm_compute. reflexivity.
Qed.
Lemma race_example : exists r, steps (fun a => a_id a =? 3) (conn_start (fun a => a_id a =? 3) [Addr 1 false; Addr 2 true; Addr 3 true]) (Returned r).
Proof.
  eexists. cbn. eapply st_step; [apply step_timeout|]. eapply st_step; [apply (step_race_err _ _ _ _ _ [] (Addr 2 true) [Addr 1 false]); reflexivity|].
  eapply st_step; [apply (step_race_ok _ _ _ _ _ [Addr 1 false] (Addr 3 true) []); reflexivity|]. apply st_refl.
Qed.
