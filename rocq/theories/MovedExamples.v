(** Suites whose files are renamed: cases *)
From Verif Require Import TextProofs LexerProofs ParserSound ReadSound EvalExamples NewExamples GrownExamples MovedProofs SpecReading SpecMoved ProcessExamples.
Open Scope N_scope.

Definition let_file : str := lit "let h = ""x"";" ++ [10].
Definition request_file : str := lit "request r `GET http://{h}/`[]" ++ [10].
Definition test_file : str := lit "test t { r() }" ++ [10].
(** a directory of three files *)
Definition three (a b c : str) : str * node := (lit "d", NDir [(lit "c.fan", NFile (Some (utf8 c))); (lit "a.fan", NFile (Some (utf8 a))); (lit "b.fan", NFile (Some (utf8 b)))]).
Definition three_launch (root : str * node) : process := launch (fun l => l) online root (Some (lit "t")) 1 None 1 false [] [].
Definition three_done (root : str * node) : process := play quiet ([Onward; Onward; Onward] ++ taking_turns 20) (three_launch root).
Lemma let_contained : self_contained let_file.
Proof.
  exists (lit "let h = ""x"";"), 10, [], [IExpr (ELet (lit "h") (EStr (lit "x")))], ((op KLet "let" :: Tok KIdent (lit "h") :: op KAssign "=" :: [Tok KString (lit "x")]) ++ op KSemi ";" :: []).
  split; [reflexivity|]. split; [apply (closed_end _ (removelast (removelast (segment (lit "let h = ""x"";")))) (op KSemi ";")); [reflexivity|discriminate|discriminate]|].
  split; [apply is_ws_iff; reflexivity|]. split; [constructor|]. split; [reflexivity|].
  split; [constructor 2; repeat constructor|]. split; [intros t r [= <- <-]; discriminate|].
  intros i e [<-|[]] ->. split; apply everywhere_eq; (split; [cbn; auto|apply everywhere_eq; cbn; auto]).
Qed.
Lemma request_contained : self_contained request_file.
Proof.
  exists (lit "request r `GET http://{h}/`[]"), 10, [], [IRequest (lit "r") (lit "GET http://{h}/") []], ([op KRequest "request"; Tok KIdent (lit "r"); Tok KTemplate (lit "GET http://{h}/"); op KLs "["] ++ [] ++ [op KRs "]"] ++ []).
  split; [reflexivity|]. split; [apply (closed_end _ (removelast (removelast (segment (lit "request r `GET http://{h}/`[]")))) (op KRs "]")); [reflexivity|discriminate|discriminate]|].
  split; [apply is_ws_iff; reflexivity|]. split; [constructor|]. split; [reflexivity|].
  split. { apply (fi_def (IRequest (lit "r") (lit "GET http://{h}/") []) (op KRequest "request" :: Tok KIdent (lit "r") :: Tok KTemplate (lit "GET http://{h}/") :: op KLs "[" :: [] ++ [op KRs "]"]) [] []); [repeat constructor|discriminate|constructor|discriminate]. }
  split; [intros t r [= <- <-]; discriminate|].
  intros i e [<-|[]]. cbn [in_item]. intros [].
Qed.
Lemma test_contained : self_contained test_file.
Proof.
  exists (lit "test t { r() }"), 10, [], [ITest (lit "t") [ECall (lit "r") []]], ((op KTest "test" :: Tok KIdent (lit "t") :: op KLb "{" :: (Tok KIdent (lit "r") :: op KLp "(" :: [] ++ [op KRp ")"]) ++ [op KRb "}"]) ++ []).
  split; [reflexivity|]. split; [apply (closed_end _ (removelast (removelast (segment (lit "test t { r() }")))) (op KRb "}")); [reflexivity|discriminate|discriminate]|].
  split; [apply is_ws_iff; reflexivity|]. split; [constructor|]. split; [reflexivity|].
  split. { constructor 3; [|discriminate|constructor|discriminate]. constructor. constructor. constructor. constructor. }
  split; [intros t r [= <- <-]; discriminate|].
  intros i e [<-|[]]. cbn [in_item]. intros [<-|[]]. split; apply everywhere_eq; cbn; auto.
Qed.
Lemma none_or {V} (l m : list (str * V)) : (forall n, In n (map fst l) -> ~ In n (map fst m)) -> forall n, mget n l = None \/ mget n m = None.
Proof.
  intros H n. destruct (mget n l) as [v|] eqn:A; auto. destruct (mget n m) as [u|] eqn:B; auto. apply mget_some_in in A, B. destruct (H n); [apply (in_map fst) in A|apply (in_map fst) in B]; auto.
Qed.
Lemma three_independent : ForallOrdPairs independent [let_file; request_file; test_file].
Proof.
  assert (I : forall f g sf sg, parse f = Ok sf -> parse g = Ok sg -> s_exprs sf = [] \/ s_exprs sg = [] -> (forall n, In n (map fst (s_requests sf)) -> ~ In n (map fst (s_requests sg))) -> (forall n, In n (map fst (s_tests sf)) -> ~ In n (map fst (s_tests sg))) -> independent f g).
  { intros f g sf sg P Q E R T. exists sf, sg. repeat split; auto; now apply none_or. }
  repeat constructor; (eapply I; [vm_compute; reflexivity|vm_compute; reflexivity|cbn; tauto|cbn; intuition discriminate|cbn; intuition discriminate]).
Qed.
Lemma moved_example : Forall self_contained [let_file; request_file; test_file] /\ ForallOrdPairs independent [let_file; request_file; test_file] /\
  Permutation [let_file; request_file; test_file] [test_file; let_file; request_file] /\
  (let root := three let_file request_file test_file in read_node (fst root) (snd root) = Some (List.concat [let_file; request_file; test_file])) /\
  (let root := three test_file let_file request_file in read_node (fst root) (snd root) = Some (List.concat [test_file; let_file; request_file])) /\
  goes quiet (three_launch (three let_file request_file test_file)) (three_done (three let_file request_file test_file)) /\ p_main (three_done (three let_file request_file test_file)) = Gone true /\
  hd_error (p_log (three_done (three let_file request_file test_file))) = Some (Tester 0, Sent (lit "GET http://x/")).
Proof.
  split; [repeat constructor; [exact let_contained|exact request_contained|exact test_contained]|]. split; [exact three_independent|].
  split; [apply Permutation_sym, (Permutation_cons_append [let_file; request_file] test_file)|].
  split; [vm_compute; reflexivity|]. split; [vm_compute; reflexivity|]. split; [apply play_goes|]. split; vm_compute; reflexivity.
Qed.
(** a name defined twice: the last file counts *)
Definition other_file : str := lit "request r `GET http://y/`[]" ++ [10].
Lemma other_contained : self_contained other_file.
Proof.
  exists (lit "request r `GET http://y/`[]"), 10, [], [IRequest (lit "r") (lit "GET http://y/") []], ([op KRequest "request"; Tok KIdent (lit "r"); Tok KTemplate (lit "GET http://y/"); op KLs "["] ++ [] ++ [op KRs "]"] ++ []).
  split; [reflexivity|]. split; [apply (closed_end _ (removelast (removelast (segment (lit "request r `GET http://y/`[]")))) (op KRs "]")); [reflexivity|discriminate|discriminate]|].
  split; [apply is_ws_iff; reflexivity|]. split; [constructor|]. split; [reflexivity|].
  split. { apply (fi_def (IRequest (lit "r") (lit "GET http://y/") []) (op KRequest "request" :: Tok KIdent (lit "r") :: Tok KTemplate (lit "GET http://y/") :: op KLs "[" :: [] ++ [op KRs "]"]) [] []); [repeat constructor|discriminate|constructor|discriminate]. }
  split; [intros t r [= <- <-]; discriminate|].
  intros i e [<-|[]]. cbn [in_item]. intros [].
Qed.
Definition third_file : str := let_file ++ test_file.
Theorem same_name_matters : exists a b c, Forall self_contained [a; b] /\
  let run root := launch (fun l => l) online root (Some (lit "t")) 1 None 1 false [] [] in
  exists p p', goes quiet (run (three a b c)) p /\ p_main p = Gone true /\ p_flag p = true /\ goes quiet (run (three b a c)) p' /\ p_main p' = Gone true /\ p_flag p' = true /\
  In (Tester 0, Sent (lit "GET http://y/")) (p_log p) /\ In (Tester 0, Sent (lit "GET http://x/")) (p_log p').
Proof.
  exists request_file, other_file, third_file. split; [repeat constructor; [exact request_contained|exact other_contained]|]. cbv zeta.
  exists (three_done (three request_file other_file third_file)), (three_done (three other_file request_file third_file)).
  split; [apply play_goes|]. split; [vm_compute; reflexivity|]. split; [vm_compute; reflexivity|]. split; [apply play_goes|]. split; [vm_compute; reflexivity|]. split; [vm_compute; reflexivity|]. split; vm_compute; auto.
Qed.
(** definitions in another order *)
Definition order_a : str := lit "request r`GET http://x/` test t { r() } request q`GET http://y/`".
Definition order_b : str := lit "request q`GET http://y/` request r`GET http://x/` test t { r() }".
Definition r_item : item := IRequest (lit "r") (lit "GET http://x/") [].
Definition q_item : item := IRequest (lit "q") (lit "GET http://y/") [].
Definition t_item : item := ITest (lit "t") [ECall (lit "r") []].
Definition request_tokens (n m : str) : list token := [op KRequest "request"; Tok KIdent n; Tok KTemplate m].
Definition t_tokens : list token := op KTest "test" :: Tok KIdent (lit "t") :: op KLb "{" :: ((Tok KIdent (lit "r") :: op KLp "(" :: [] ++ [op KRp ")"]) ++ []) ++ [op KRb "}"].
Lemma definitions_example : exists src src' w w', parse order_a = Ok src /\ parse order_b = Ok src' /\
  segment order_a = w ++ [Tok KEof []] /\ reads_items [r_item; t_item; q_item] w /\ segment order_b = w' ++ [Tok KEof []] /\ reads_items [q_item; r_item; t_item] w' /\
  item_exprs [q_item; r_item; t_item] = item_exprs [r_item; t_item; q_item] /\ Permutation (item_requests [r_item; t_item; q_item]) (item_requests [q_item; r_item; t_item]) /\
  NoDup (map fst (item_requests [r_item; t_item; q_item])) /\ Permutation (item_tests [r_item; t_item; q_item]) (item_tests [q_item; r_item; t_item]) /\ NoDup (map fst (item_tests [r_item; t_item; q_item])) /\
  s_requests src <> s_requests src'.
Proof.
  assert (T : forall k, reads_item k t_item t_tokens). { intros k. apply rt_test, rb_next; [apply rd_call, rl_nil|intros C; apply carries_prec in C; vm_compute in C; discriminate|constructor]. }
  assert (Q : forall k n m, k <> KLs -> reads_item k (IRequest n m []) (request_tokens n m)) by (intros; now constructor).
  eexists _, _, (request_tokens (lit "r") (lit "GET http://x/") ++ t_tokens ++ request_tokens (lit "q") (lit "GET http://y/") ++ []), (request_tokens (lit "q") (lit "GET http://y/") ++ request_tokens (lit "r") (lit "GET http://x/") ++ t_tokens ++ []).
  split; [vm_compute; reflexivity|]. split; [vm_compute; reflexivity|]. split; [vm_compute; reflexivity|].
  split; [apply rs_next; [apply Q; discriminate|apply rs_next; [apply T|apply rs_next; [apply Q; discriminate|constructor]]]|]. split; [vm_compute; reflexivity|].
  split; [apply rs_next; [apply Q; discriminate|apply rs_next; [apply Q; discriminate|apply rs_next; [apply T|constructor]]]|]. split; [reflexivity|].
  split; [apply perm_swap|]. split; [repeat constructor; cbn; intuition discriminate|]. split; [apply Permutation_refl|]. split; [repeat constructor; cbn; tauto|]. discriminate.
Qed.
