(** Cases of assertions about a document *)
From Verif Require Import TextProofs JsonProofs FloatLiteral EvalExamples ReportExamples AssertProofs SpecAssert.
Open Scope N_scope.

Definition shelf_text : str := lit "{""items"":[7,{""name"":""b""}],""price"":2.5,""down"":-5}".
Definition shelf : env := answering (fun _ => shelf_text).
Definition shelf_test : str := lit "request r`GET http://h/`[json.items[0] == 7, json.items[1][""name""] >= ""a"", json.items[1].name != ""c"", json.price < 3, status == 200, json.items[2] == 7, json.price == 3, headers.Server[0] == ""x""] r()".
Lemma shelf_example : exists src, parse shelf_test = Ok src /\
  (forall n template asserts e, mget n (s_requests src) = Some (template, asserts) -> In e asserts -> let_names e = []) /\
  exists v s, eval_block shelf (s_exprs src) (St (ctx_extend ctx_new (s_requests src)) []) = (Ok v, s) /\
    map (fun r => map a_result (r_asserts r)) (c_recs (s_ctx s)) = [[true; true; true; true; true; false; false; false]].
Proof.
  destruct (parse shelf_test) as [src|e| |] eqn:P; try (vm_compute in P; discriminate P).
  assert (A : match parse shelf_test with Ok src => forallb (fun kv => forallb (fun e => match let_names e with [] => true | _ => false end) (snd (snd kv))) (s_requests src) | _ => false end = true) by (vm_compute; reflexivity).
  rewrite P in A.
  assert (B : match parse shelf_test with Ok src => match eval_block shelf (s_exprs src) (St (ctx_extend ctx_new (s_requests src)) []) with
    | (Ok _, s) => map (fun r => map a_result (r_asserts r)) (c_recs (s_ctx s)) | _ => [] end | _ => [] end = [[true; true; true; true; true; false; false; false]]) by (vm_compute; reflexivity).
  rewrite P in B. clear P. exists src. split; [reflexivity|]. split.
  - intros n tp as_ e G I. apply mget_some_in in G. rewrite forallb_forall in A. apply A in G. cbn [snd] in G. rewrite forallb_forall in G. apply G in I. destruct (let_names e); congruence.
  - destruct (eval_block _ _ _) as [[v| | |] s]; try discriminate B. eauto.
Qed.
Lemma shelf_document : exists d, json shelf_text d /\ located d [Field (lit "items"); Nth 1; Key (lit "name")] (JStr (lit "b")) /\
  ranks (JStr (lit "b")) (EStr (lit "a")) Gt /\ ~ agrees (JStr (lit "b")) (EStr (lit "c")) /\ forall x, ~ located d [Field (lit "items"); Nth 2] x.
Proof.
  assert (P : forall s, forallb (fun c => negb ((c =? 34) || (c =? 92))) s = true -> plain s).
  { intros s F. rewrite forallb_forall in F. split; intros I; apply F in I; discriminate. }
  assert (Z : blank []) by constructor.
  destruct (parse_f64 (lit "2.5")) as [f|] eqn:F; [|vm_compute in F; discriminate F]. apply parse_f64_iff in F.
  exists (JObj [(lit "items", JArr [JInt 7; JObj [(lit "name", JStr (lit "b"))]]); (lit "price", JFrac f); (lit "down", JNeg)]).
  split; [|split; [|split; [|split]]].
  - apply (js_object (lit """items"":[7,{""name"":""b""}],""price"":2.5,""down"":-5")).
    apply (jm_more [] (lit "items") [] (lit "[7,{""name"":""b""}]") _ (lit """price"":2.5,""down"":-5")); auto.
    + apply (js_array (lit "7,{""name"":""b""}")). apply (ji_more (lit "7") (JInt 7) (lit "{""name"":""b""}")).
      * apply js_number. apply (nb_int (lit "7")); [discriminate|repeat constructor; discriminate|reflexivity].
      * apply ji_last. apply (js_object (lit """name"":""b""")). apply (jm_last [] (lit "name") [] (lit """b""")); auto. apply (js_string (lit "b")); auto.
    + apply (jm_more [] (lit "price") [] (lit "2.5") _ (lit """down"":-5")); auto.
      * apply js_number. apply (nb_frac (lit "2") (lit "5")); auto; try discriminate; repeat constructor; discriminate.
      * apply (jm_last [] (lit "down") [] (lit "-5")); auto. apply (js_negative (lit "5") (JInt 5)). apply (nb_int (lit "5")); [discriminate|repeat constructor; discriminate|reflexivity].
  - eapply lo_field; [exists [], [(lit "price", JFrac f); (lit "down", JNeg)]; split; [reflexivity|]|].
    { cbn. intros [H|[H|[]]]; discriminate H. }
    eapply lo_nth; [reflexivity|]. eapply lo_key; [exists [], []; split; [reflexivity|intros []]|]. constructor.
  - apply rk_after. vm_compute. apply lex_head. reflexivity.
  - intros H. inversion H.
  - intros x H. inversion H as [|? ? ? ? ? L L2| | |]; subst. match type of L with last_def _ ?l _ => assert (K : last_def (lit "items") l (JArr [JInt 7; JObj [(lit "name", JStr (lit "b"))]])) end.
    { exists [], [(lit "price", JFrac f); (lit "down", JNeg)]. split; [reflexivity|]. cbn. intros [X|[X|[]]]; discriminate X. }
    rewrite (last_unique _ _ _ _ L K) in L2. inversion L2; subst. discriminate.
Qed.
(** a number below zero in the document is equal to no number, not even itself, and is not below zero *)
Definition freezing : env := answering (fun _ => lit "{""n"":-5}").
Definition freezing_test : str := lit "request r`GET http://h/`[json.n == -5, json.n < 0, json.n != -5] r()".
Lemma negative_lost : exists w text, map rs_body (map r_response (recs_of (script w text))) = [lit "{""n"":-5}"] /\
  asserts_of (script w text) = [[(lit "json.n == -5", lit "null", lit "-5", false); (lit "json.n < 0", lit "null", lit "0", false); (lit "json.n != -5", lit "null", lit "-5", true)]].
Proof. exists freezing, freezing_test. vm_compute. auto. Qed.
(** a page where a document was expected *)
Definition page_text : str := [10; 32] ++ lit "<html>no</html>".
Definition paged : env := answering (fun _ => page_text).
Definition page_test : str := lit "request r`GET http://h/`[json.n == 1, json != ""c"", json[0].n < 3, status == 200] r()".
Lemma page_example : map rs_body (map r_response (recs_of (script paged page_test))) = [page_text] /\ (forall r, rs_body r = page_text -> documented r) /\
  asserts_of (script paged page_test) = [[(lit "json.n == 1", lit "null", lit "1", false); (lit "json != ""c""", lit "null", lit "c", true); (lit "json[0].n < 3", lit "null", lit "3", false); (lit "status == 200", lit "200", lit "200", true)]].
Proof.
  split; [vm_compute; reflexivity|]. split; [|vm_compute; reflexivity].
  intros r E. unfold documented. rewrite E. right. exists [10; 32]. split; [repeat constructor; unfold ws; cbn; tauto|]. right. exists (lit "html>no</html>"). reflexivity.
Qed.
