(** Programs typed line by line: cases *)
From Verif Require Import TextProofs LexerProofs SyntaxProofs ParserSound ParserTop ParserExamples CombineProofs RunMore RunExamples EvalExamples NewExamples ByLineProofs SpecByLine.
Open Scope N_scope.

Lemma online_unaware : unaware online. Proof. intros t1 t2 m _. reflexivity. Qed.
(** a request, a call, a blank line, a look at the answer followed by an error, and a line that is not reached *)
Definition five_lines : list str := [lit "request get`GET http://h/`;"; lit "let r = get();"; lit "  "; lit "println(""{c}"", r.status); nothing;"; lit "let z = 1;"].
Lemma self_of a is w ts : segment a = (ts ++ [op KSemi ";"]) ++ [Tok KEof []] -> w = ts ++ [op KSemi ";"] -> finished is w -> (forall t r, w = t :: r -> tkind t <> KLs) ->
  (forall i e, In i is -> in_item e i -> no_let_operand e /\ prec_ok e) -> self_contained (a ++ [10]).
Proof.
  intros S -> F N P. exists a, 10, [], is, (ts ++ [op KSemi ";"]). split; [reflexivity|]. split; [apply (closed_end a ts (op KSemi ";")); auto; discriminate|].
  split; [apply is_ws_iff; reflexivity|]. split; [constructor|]. auto.
Qed.
Ltac fine := repeat first [exact I|apply Forall_nil|apply Forall_cons|apply everywhere_eq; split; [cbn; tauto|cbn beta iota]].
Lemma five_self : Forall (fun l => self_contained (l ++ [10])) five_lines.
Proof.
  unfold five_lines. repeat (apply Forall_cons || apply Forall_nil).
  - apply (self_of _ [IRequest (lit "get") (lit "GET http://h/") []] ([op KRequest "request"; Tok KIdent (lit "get"); Tok KTemplate (lit "GET http://h/")] ++ op KSemi ";" :: []) [op KRequest "request"; Tok KIdent (lit "get"); Tok KTemplate (lit "GET http://h/")]);
      [reflexivity|reflexivity|constructor 2; constructor|intros t r [= <- <-]; discriminate|intros i e [<-|[]] []].
  - apply (self_of _ [IExpr (ELet (lit "r") (ECall (lit "get") []))] ((op KLet "let" :: Tok KIdent (lit "r") :: op KAssign "=" :: [Tok KIdent (lit "get"); op KLp "("; op KRp ")"]) ++ op KSemi ";" :: []) (removelast (removelast (segment (lit "let r = get();")))));
      [reflexivity|reflexivity|constructor 2; [|constructor]; constructor|intros t r [= <- <-]; discriminate|intros i e [<-|[]] ->].
    + apply (sx_let true (lit "r")). apply (sx_call true (lit "get") [] []). constructor.
    + split; fine.
  - exists [32], 32, [10], [], []. split; [reflexivity|]. split; [apply cl_ws; [apply is_ws_iff; reflexivity|constructor]|]. split; [apply is_ws_iff; reflexivity|].
    split; [constructor; [apply is_ws_iff; reflexivity|constructor]|]. split; [reflexivity|]. split; [constructor|]. split; [discriminate|intros i e []].
  - apply (self_of _ [IExpr (ECall (lit "println") [EStr (lit "{c}"); EField (EIdent (lit "r")) (lit "status")]); IExpr (EIdent (lit "nothing"))]
      ((Tok KIdent (lit "println") :: op KLp "(" :: ([Tok KString (lit "{c}")] ++ op KComma "," :: [Tok KIdent (lit "r")] ++ [op KDot "."; Tok KIdent (lit "status")]) ++ [op KRp ")"]) ++ op KSemi ";" :: [Tok KIdent (lit "nothing")] ++ op KSemi ";" :: [])
      (removelast (removelast (segment (lit "println(""{c}"", r.status); nothing;")))));
      [reflexivity|reflexivity| |intros t r [= <- <-]; discriminate|intros i e [<-|[<-|[]]] ->].
    + constructor 2; [|constructor 2; [|constructor]]; constructor; [|constructor]. apply (sx_call true (lit "println")). apply (sl_cons true (EStr (lit "{c}"))); [constructor|]. apply sl_last. apply sx_field. constructor.
    + split; fine.
    + split; fine.
  - apply (self_of _ [IExpr (ELet (lit "z") (EInt 1))] ((op KLet "let" :: Tok KIdent (lit "z") :: op KAssign "=" :: [Tok KInteger (lit "1")]) ++ op KSemi ";" :: []) (removelast (removelast (segment (lit "let z = 1;")))));
      [reflexivity|reflexivity|constructor 2; [|constructor]; constructor|intros t r [= <- <-]; discriminate|intros i e [<-|[]] ->].
    + apply (sx_let true (lit "z")). apply (sx_int true (lit "1")); [discriminate|repeat constructor; discriminate|reflexivity].
    + split; fine.
Qed.
Lemma five_first : defined_first five_lines.
Proof.
  unfold five_lines.
  assert (N : forall l l', (match parse l with Ok s => match s_requests s with [] => true | _ => false end | _ => true end) = true -> In l' [l] -> forall src' r, parse l' = Ok src' -> mget r (s_requests src') = None).
  { intros l l' H [<-|[]] src' r P. rewrite P in H. destruct (s_requests src'); [reflexivity|discriminate H]. }
  repeat constructor; intros src e r P I J l' src' L P';
    repeat (destruct L as [<-|L]; [eapply N; [|left; reflexivity|exact P']; vm_compute; reflexivity|]); destruct L.
Qed.
Lemma five_example : unaware online /\ Forall (fun l => self_contained (l ++ [10])) five_lines /\ defined_first five_lines /\
  exists e s, script online (one_text five_lines) = Some (Err e, s) /\ map fst (c_vars (s_ctx s)) = [lit "r"] /\ sent_messages (script online (one_text five_lines)) = [lit "GET http://h/"] /\
    printed (s_trace s) = lit "200" ++ [10] /\
    forall t, session online (map Some (firstn 4 five_lines)) (St ctx_new []) t -> map fst (c_vars (s_ctx t)) = [lit "r"] /\
      exists shown, s_trace t = [Printed (lit "null" ++ [10]); Sent (lit "GET http://h/"); Printed shown; Printed (lit "200" ++ [10]); Printed (lit "ident:nothing not found" ++ [10])].
Proof.
  split; [apply online_unaware|]. split; [apply five_self|]. split; [apply five_first|].
  assert (X : match script online (one_text five_lines) with Some (Err e, s) => Some (map fst (c_vars (s_ctx s)), printed (s_trace s)) | _ => None end = Some ([lit "r"], lit "200" ++ [10])) by (vm_compute; reflexivity).
  assert (Y : sent_messages (script online (one_text five_lines)) = [lit "GET http://h/"]) by (vm_compute; reflexivity).
  destruct (script online (one_text five_lines)) as [[[v|e| |] s]|]; try discriminate X. injection X as X1 X2. exists e, s. repeat split; auto;
    apply (repl_exit _ _ []) in H; cbn [five_lines firstn map app] in H; vm_compute in H; injection H as <-; [reflexivity|].
  eexists. reflexivity.
Qed.
(** a text may call a request that is defined further down, a session may not *)
Definition upside_down : list str := [lit "let r = get();"; lit "request get`GET http://h/`;"].
Lemma order_matters : exists w ls, unaware w /\ Forall (fun l => self_contained (l ++ [10])) ls /\
  (exists v s, script w (one_text ls) = Some (Ok v, s) /\ sent (s_trace s) = 1%nat) /\
  forall t, session w (map Some ls) (St ctx_new []) t -> sent (s_trace t) = 0%nat.
Proof.
  exists online, upside_down. split; [apply online_unaware|]. split.
  { pose proof five_self as F. unfold five_lines in F. inversion F as [|? ? A F2]; subst. inversion F2 as [|? ? B _]; subst. constructor; [exact B|]. constructor; [exact A|constructor]. }
  split.
  - assert (X : match script online (one_text upside_down) with Some (Ok v, s) => Some (sent (s_trace s)) | _ => None end = Some 1%nat) by (vm_compute; reflexivity).
    destruct (script online (one_text upside_down)) as [[[v|e| |] s]|]; try discriminate X. injection X as X. eauto.
  - intros t H. apply (repl_exit _ _ []) in H. vm_compute in H. injection H as <-. reflexivity.
Qed.
