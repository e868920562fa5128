(** Suites that grow: cases *)
From Coq Require Import Lia.
From Verif Require Import TextProofs LexerProofs ParserSound EvalExamples NewExamples GrownProofs SpecGrown ProcessExamples.
Open Scope N_scope.

Definition small_file : str := lit "test u { 1 }" ++ [10].
Definition new_file : str := lit "request r `GET http://h/` test t { a }" ++ [10; 10].
Lemma small_contained : self_contained small_file.
Proof.
  exists (lit "test u { 1 }"), 10, [], [ITest (lit "u") [EInt 1]], ((op KTest "test" :: Tok KIdent (lit "u") :: op KLb "{" :: [Tok KInteger (lit "1")] ++ [op KRb "}"]) ++ []).
  split; [reflexivity|]. split; [apply (closed_end _ (removelast (removelast (segment (lit "test u { 1 }")))) (op KRb "}")); [reflexivity|discriminate|discriminate]|].
  split; [apply is_ws_iff; reflexivity|]. split; [constructor|]. split; [reflexivity|].
  split. { constructor 3; [|discriminate|constructor|discriminate]. constructor. constructor. apply (sx_int true (lit "1")); [discriminate|constructor; [split; vm_compute; discriminate|constructor]|reflexivity]. }
  split; [intros t r [= <- <-]; discriminate|].
  intros i e [<-|[]]. cbn [in_item]. intros [<-|[]]. split; apply everywhere_eq; cbn; auto.
Qed.
Lemma files_example : Forall self_contained ([small_file] ++ new_file :: []) /\ exists src sf, parse (List.concat ([small_file] ++ [])) = Ok src /\ parse new_file = Ok sf /\
  mget (lit "u") (s_tests src) = Some [EInt 1] /\ mget (lit "u") (s_tests sf) = None /\ s_exprs sf = [] /\ s_exprs src = [] /\ s_requests sf <> [].
Proof.
  split; [constructor; [exact small_contained|]; constructor; [apply self_example|constructor]|].
  eexists _, _. split; [vm_compute; reflexivity|]. split; [vm_compute; reflexivity|]. repeat split. discriminate.
Qed.
(** a request with the name of a function that is used *)
Definition plain_suite : str := lit "test u { print(""x"") }".
Definition hijacked : str := plain_suite ++ [10] ++ lit "request print`GET http://h/`".
Definition quiet : setting := Setting false (lit "out") (fun _ => true) (fun _ => []) (fun _ => online) (fun l => l) true.
Theorem grown_hijacked : exists p p', let run t := launch (fun l => l) online (at_file t) (Some (lit "u")) 1 None 1 false [] [] in
  goes quiet (run plain_suite) p /\ p_main p = Gone true /\ p_flag p = true /\ goes quiet (run hijacked) p' /\ p_main p' = Gone true /\ p_flag p' = true /\
  p_log p = [(Tester 0, Printed (lit "x"))] /\ In (Tester 0, Sent (lit "GET http://h/")) (p_log p').
Proof.
  set (acts := [Onward; Onward; Onward] ++ taking_turns 20).
  exists (play quiet acts (launch (fun l => l) online (at_file plain_suite) (Some (lit "u")) 1 None 1 false [] [])).
  exists (play quiet acts (launch (fun l => l) online (at_file hijacked) (Some (lit "u")) 1 None 1 false [] [])).
  cbn zeta. split; [apply play_goes|]. split; [vm_compute; reflexivity|]. split; [vm_compute; reflexivity|]. split; [apply play_goes|]. split; [vm_compute; reflexivity|]. split; [vm_compute; reflexivity|].
  split; [vm_compute; reflexivity|]. vm_compute. auto.
Qed.
(** nothing is hijacked *)
Definition grown_suite : str := plain_suite ++ [10] ++ lit "request get`GET http://h/` test v { get() } let k = 1;".
Lemma grown_example : exists src src' s1 s1' body p p', let run t := launch (fun l => l) online (at_file t) (Some (lit "u")) 1 None 1 true [] [] in
  loads online (at_file plain_suite) src s1 /\ loads online (at_file grown_suite) src' s1' /\ grown src src' [ELet (lit "k") (EInt 1)] (lit "u") body /\
  goes plain (run plain_suite) p /\ p_main p = Gone true /\ p_flag p = true /\ goes plain (run grown_suite) p' /\ p_main p' = Gone true /\ p_flag p' = true.
Proof.
  destruct (parse plain_suite) as [src| | |] eqn:P; [|vm_compute in P; discriminate..].
  destruct (eval_block online (s_exprs src) (St (Ctx [] (mextend [] (s_requests src)) []) [])) as [[v|e| |] s1] eqn:E; [|vm_compute in P; injection P as <-; vm_compute in E; discriminate..].
  destruct (parse grown_suite) as [src'| | |] eqn:P'; [|vm_compute in P'; discriminate..].
  destruct (eval_block online (s_exprs src') (St (Ctx [] (mextend [] (s_requests src')) []) [])) as [[v'|e| |] s1'] eqn:E'; [|vm_compute in P'; injection P' as <-; vm_compute in E'; discriminate..].
  set (acts := [Onward; Onward; Onward] ++ taking_turns 20).
  exists src, src', s1, s1', [ECall (lit "print") [EStr (lit "x")]].
  exists (play plain acts (launch (fun l => l) online (at_file plain_suite) (Some (lit "u")) 1 None 1 true [] [])).
  exists (play plain acts (launch (fun l => l) online (at_file grown_suite) (Some (lit "u")) 1 None 1 true [] [])).
  cbn zeta. split; [exists plain_suite, v; split; [vm_compute; reflexivity|auto]|]. split; [exists grown_suite, v'; split; [vm_compute; reflexivity|auto]|].
  split.
  { vm_compute in P. injection P as <-. vm_compute in P'. injection P' as <-. clear. split; [reflexivity|]. split; [reflexivity|]. split; [reflexivity|]. cbn [s_exprs s_requests app]. split.
    - intros e r [<-|[]] [<-|[]]. reflexivity.
    - intros e n [<-|[]] [I|(r & t & a & ps & _ & J & _)]; [cbn in I; contradiction|discriminate J]. }
  split; [apply play_goes|]. split; [vm_compute; reflexivity|]. split; [vm_compute; reflexivity|]. split; [apply play_goes|]. split; vm_compute; reflexivity.
Qed.
