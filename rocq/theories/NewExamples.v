(** Concrete cases for C68-C77 *)
From Verif Require Import SpecReads SpecSafe SpecCombine SpecWritten SpecSend TextProofs LexerProofs SyntaxProofs ParserSound ParserProgram
  ParserTermination ParserExamples ValueExamples EvalExamples TemplateProofs HttpExamples CombineProofs RequestProofs SendProofs.
Open Scope N_scope.

(** ** C68 *)
Lemma reads_example : let e := EBin (op KAdd "+") (EIdent (lit "a")) (ECall (lit "get") []) in
  let s x := St (Ctx [(lit "a", VInt 1); (lit "b", x); (lit "h", VStr (lit "h"))] [(lit "get", (lit "GET http://{h}/", []))] []) [] in
  look_alike e (s (VInt 2)) (s VNull) /\ s (VInt 2) <> s VNull /\ ~ SpecReads.reads (c_reqs (s_ctx (s VNull))) e (lit "b").
Proof.
  intros e s.
  assert (R : forall n, SpecReads.reads (c_reqs (s_ctx (s VNull))) e n -> n = lit "a" \/ n = lit "h").
  { intros n [H|(r & t & as_ & ps & I & G & S & H)].
    - destruct H as [<-|[]]. now left.
    - destruct I as [<-|[]]. vm_compute in G. inversion G; subst. right.
      assert (E : ps = scan_of 60 (lit "GET http://{h}/")).
      { apply (scan_unique _ _ S). vm_compute scan_of. vm_compute lit.
        repeat (first [apply sc_nil | apply sc_lit; [apply lit_by_match; vm_compute; reflexivity|]
          | match goal with |- scan (123 :: 104 :: 125 :: ?r) _ => apply (sc_hole [123; 104; 125] [104] r) end]).
        split; [exists 104, []; repeat split; [right; left; split; discriminate|constructor]|]. exists [], []. repeat split; constructor. }
      subst ps. vm_compute in H. destruct H as [<-|[]]. reflexivity. }
  split; [|split; [discriminate|intros H; apply R in H; destruct H; discriminate]].
  split; [reflexivity|]. split; [reflexivity|]. intros n H. apply (R n) in H. destruct H as [-> | ->]; reflexivity.
Qed.

(** ** C69, C70 *)
Definition loud : env := Env (some_host true) (fun _ => true)
  (fun _ _ => Exchange 0 0 (inl 1%N) 3 None 4 5 (Reader (utf8 (lit "HTTP/1.1 200 OK" ++ [13; 10; 13; 10] ++ lit "Hello!")) None) 9 10 11).
Lemma loud_loops : steady loud /\ parse (lit "request get`GET http://h/` get()") = Ok (Source [ECall (lit "get") []] [(lit "get", (lit "GET http://h/", []))] []) /\
  fst (eval_block loud [ECall (lit "get") []] (St (Ctx [] [(lit "get", (lit "GET http://h/", []))] []) [])) = Diverge.
Proof.
  split; [|split; vm_compute; reflexivity].
  intros tr msg. cbn. unfold ordered. cbn. repeat split; try lia. intros d [= <-]. lia.
Qed.
Lemma risk_real checks k : In k (risky_binary checks) -> exists l r, fst (eval_expr (some_env checks) (EBin (Tok k []) l r) empty_state) = Panic.
Proof.
  assert (M : forall a b o, fst (eval_expr (some_env checks) (EBin (Tok k []) (EInt a) (EInt b)) empty_state) = o -> o = Panic ->
     exists l r, fst (eval_expr (some_env checks) (EBin (Tok k []) l r) empty_state) = Panic) by (intros a b o <- E; eauto).
  unfold risky_binary. intros H. apply in_app_iff in H. destruct H as [[<-|[<-|[]]]|H].
  - destruct checks; apply (M 1%Z 0%Z _ eq_refl); vm_compute; reflexivity.
  - destruct checks; apply (M 1%Z 0%Z _ eq_refl); vm_compute; reflexivity.
  - destruct checks; [|contradiction]. destruct H as [<-|[<-|[<-|[<-|[<-|[]]]]]].
    + apply (M (2 ^ 63 - 1)%Z 1%Z _ eq_refl); vm_compute; reflexivity.
    + apply (M (- 2 ^ 63)%Z 1%Z _ eq_refl); vm_compute; reflexivity.
    + apply (M (2 ^ 63 - 1)%Z 2%Z _ eq_refl); vm_compute; reflexivity.
    + apply (M 1%Z 64%Z _ eq_refl); vm_compute; reflexivity.
    + apply (M 1%Z 64%Z _ eq_refl); vm_compute; reflexivity.
Qed.
Lemma safe_example : steady online /\ readable_bodies online /\ no_risk true (EBin (op KEq "==") (EIdent (lit "a")) (ECall (lit "get") [])) /\
  no_risk_requests true (St (Ctx [] [(lit "get", (lit "GET http://h/", [EBin (op KLt "<") (EIdent (lit "status")) (EInt 300)]))] []) []).
Proof.
  split; [|split; [|split]].
  - intros tr msg. cbn. unfold ordered. cbn. repeat split; try lia. intros d [= <-]. lia.
  - intros tr msg rs H. vm_compute in H. inversion H; subst. apply no_bangb_ok. vm_compute. reflexivity.
  - apply everywhere_eq. split; [intros H; cbn in H; repeat (destruct H as [H|H]; [discriminate|]); exact H|]. split; apply everywhere_eq; cbn; auto.
  - intros n t as_ e G I. cbn [s_ctx c_reqs mget] in G. match type of G with context [str_eqb ?a ?b] => destruct (str_eqb a b) end; [|discriminate]. inversion G; subst. destruct I as [<-|[]].
    apply everywhere_eq. split; [intros H; cbn in H; repeat (destruct H as [H|H]; [discriminate|]); exact H|]. split; apply everywhere_eq; cbn; auto.
Qed.

(** ** C71 *)
Lemma closed_or s ts : lexes s ts -> closed s \/ exists ts0 t, ts = ts0 ++ [t] /\ (tkind t = KString \/ tkind t = KTemplate).
Proof.
  induction 1 as [|c s ts W L IH|w t rest ts P M L IH|k d body D N].
  - left. constructor.
  - destruct IH as [C|(ts0 & t & -> & K)]; [left; now constructor|right; eauto].
  - destruct IH as [C|(ts0 & t' & -> & K)]; [left; econstructor; eauto|right]. exists (t :: ts0), t'. auto.
  - right. exists [], (Tok k body). split; auto. destruct D as [[= <- <-]|[[= <- <-]|[]]]; auto.
Qed.
Lemma closed_end a ts t : segment a = (ts ++ [t]) ++ [Tok KEof []] -> tkind t <> KString -> tkind t <> KTemplate -> closed a.
Proof.
  intros E N1 N2. destruct (segment_shape a) as (ts' & E' & L). rewrite E in E'. apply app_inj_tail in E'. destruct E' as [<- _].
  destruct (closed_or _ _ L) as [C|(ts0 & t' & Q & K)]; auto. apply app_inj_tail in Q. destruct Q as [_ <-]. tauto.
Qed.
Lemma self_example : self_contained (lit "let a = b;" ++ [10]) /\ self_contained (lit "request r `GET http://h/` test t { a }" ++ [10; 10]).
Proof.
  split.
  - exists (lit "let a = b;"), 10, [], [IExpr (ELet (lit "a") (EIdent (lit "b")))], ((op KLet "let" :: Tok KIdent (lit "a") :: op KAssign "=" :: [Tok KIdent (lit "b")]) ++ op KSemi ";" :: []).
    split; [reflexivity|]. split; [apply (closed_end _ (removelast (removelast (segment (lit "let a = b;")))) (op KSemi ";")); [reflexivity|discriminate|discriminate]|].
    split; [apply is_ws_iff; reflexivity|]. split; [constructor|]. split; [reflexivity|].
    split; [constructor 2; repeat constructor|]. split; [intros t r [= <- <-]; discriminate|].
    intros i e [<-|[]] ->. split; apply everywhere_eq; (split; [cbn; auto|apply everywhere_eq; cbn; auto]).
  - exists (lit "request r `GET http://h/` test t { a }"), 10, [10], [IRequest (lit "r") (lit "GET http://h/") []; ITest (lit "t") [EIdent (lit "a")]],
      ([op KRequest "request"; Tok KIdent (lit "r"); Tok KTemplate (lit "GET http://h/")] ++ (op KTest "test" :: Tok KIdent (lit "t") :: op KLb "{" :: [Tok KIdent (lit "a")] ++ [op KRb "}"]) ++ []).
    split; [reflexivity|].
    split; [apply (closed_end _ (removelast (removelast (segment (lit "request r `GET http://h/` test t { a }")))) (op KRb "}")); [reflexivity|discriminate|discriminate]|].
    split; [apply is_ws_iff; reflexivity|]. split; [repeat constructor; apply is_ws_iff; reflexivity|]. split; [reflexivity|].
    split. { constructor 3; [constructor|discriminate| |intros t r [= <- <-]; discriminate].
      constructor 3; [|discriminate|constructor|discriminate]. constructor. constructor. constructor. }
    split; [intros t r [= <- <-]; discriminate|].
    intros i e [<-|[<-|[]]]; cbn [in_item]; [intros []|intros [<-|[]]]. split; apply everywhere_eq; cbn; auto.
Qed.

(** ** C74 *)
Lemma trimmed_self (s r l : str) c d : s = c :: r -> s = l ++ [d] -> is_ws c = false -> is_ws d = false -> trimmed s s.
Proof.
  intros E1 E2 C D. exists [], []. split; [now rewrite app_nil_r|]. split; [constructor|]. split; [constructor|].
  split; intros x y E; apply is_ws_false; [congruence|]. rewrite E2 in E. apply app_inj_tail in E. destruct E. congruence.
Qed.
Lemma not_cr (s l : str) d : s = l ++ [d] -> d <> 13 -> forall l', s <> l' ++ [13].
Proof. intros -> N l' E. apply app_inj_tail in E. destruct E. congruence. Qed.
Ltac no_in := intros H; repeat (destruct H as [H|H]; [discriminate|]); exact H.
Lemma written_example : let hs := [(lit "Host", lit "a.b"); (lit "X-Id", lit "1:2")] in let body := [lit "{""n"":"; lit "  1}"] in
  Forall plain_header hs /\ plain_body body /\ content_type hs None /\ spaces (lit "    ") /\
  SpecWritten.written Post (lit "https://a.b/c?d") Http11 (lit "    ") [] hs body =
    lit "POST https://a.b/c?d HTTP/1.1" ++ [10] ++ lit "    Host: a.b" ++ [10] ++ lit "    X-Id: 1:2" ++ [10; 10] ++ lit "{""n"":" ++ [10] ++ lit "  1}".
Proof.
  cbv zeta. split; [|split; [|split; [|split]]].
  - constructor; [|constructor; [|constructor]].
    + split; [discriminate|]. split; [discriminate|]. split; [eapply (trimmed_self _ _ (lit "Hos")); reflexivity|]. split; [eapply (trimmed_self _ _ (lit "a.")); reflexivity|].
      split; [no_in|]. split; no_in.
    + split; [discriminate|]. split; [discriminate|]. split; [eapply (trimmed_self _ _ (lit "X-I")); reflexivity|]. split; [eapply (trimmed_self _ _ (lit "1:")); reflexivity|].
      split; [no_in|]. split; no_in.
  - split.
    + constructor; [|constructor; [|constructor]].
      * split; [no_in|]. apply (not_cr _ (lit "{""n""") 58); [reflexivity|discriminate].
      * split; [no_in|]. apply (not_cr _ (lit "  1") 125); [reflexivity|discriminate].
    + right. exists [lit "{""n"":"], (lit "  1"), 125. split; [reflexivity|]. apply is_ws_false. reflexivity.
  - right. split; [|reflexivity]. repeat constructor; intros H; apply lower_iff in H; vm_compute in H; discriminate.
  - repeat constructor.
  - reflexivity.
Qed.

(** ** C75-C77 *)
Definition slow : list answer := [Interrupted; Took 3; Took 1; Interrupted; Took 7; Took 2; Took 900].
Lemma slow_willing : Forall willing slow.
Proof. repeat constructor. Qed.
Definition net : network := Network (fun _ _ => Some [Addr 1 true; Addr 2 false]) (fun a => negb (a_v6 a)) (fun _ => true) (fun _ => true) (fun _ => true).
Lemma net_connects : connect net (Url Https (lit "h") 443 (lit "/")) (inl (Cipher (lit "h"), Addr 2 false)).
Proof.
  apply cn_cipher; [reflexivity|reflexivity|]. apply ct_done with (addrs := [Addr 1 true; Addr 2 false]); [reflexivity| |reflexivity].
  cbn. apply race_step with (Racing [Addr 2 false] [] (Some TcpConnectFailed)).
  { apply (step_race_err _ (Addr 1 true) [Addr 2 false] [] None [] (Addr 1 true) []); reflexivity. }
  apply race_step with (Returned (inl (Addr 2 false))); [|constructor].
  apply (step_race_ok _ (Addr 2 false) [] [] _ [] (Addr 2 false) []); reflexivity.
Qed.
Lemma net_fails : connect (Network (fun _ _ => Some []) (fun _ => true) (fun _ => true) (fun _ => true) (fun _ => true)) (Url Http (lit "h") 80 (lit "/")) (inr NoConnectionAvailable).
Proof.
  apply cn_plain_failed. eapply ct_failed; [reflexivity|]. cbn. apply race_step with (Draining [] None); [constructor|].
  apply race_step with (Returned (inr NoConnectionAvailable)); [|constructor]. apply (step_give_up _ None).
Qed.
Lemma net_happens : let r := Request Get (Url Https (lit "h") 443 (lit "/")) Http11 [] [] in
  happens net (fun _ => Copied [] None) r CEmpty up [Opened (Cipher (lit "h")) (Addr 2 false); Received (lit "GET / HTTP/1.1" ++ [13; 10; 13; 10])].
Proof.
  intros r. eapply hp_written with (answers := [Took 5; Interrupted; Took 13]) (flushes := true).
  - exact net_connects.
  - reflexivity.
  - vm_compute. reflexivity.
  - reflexivity.
Qed.
