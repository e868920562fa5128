(** Typed programs: cases *)
From Coq Require Import Lia.
From Verif Require Import TextProofs LexerProofs TemplateProofs ParserSound EvalExamples NewExamples ValueExamples ParserTermination TypesProofs SpecTypes.
Open Scope nat_scope.

Definition suite_text : str := lit "let base = ""h""; request get`GET http://{base}/`[status == 200] test a { let r = get(); println(""{s}"", r.status); if (length(r.body) > 10) { let n = r.status ^ 1; } else { let n = 0; } n | 2 }".
Definition suite_body : list expr :=
  [ELet (lit "r") (ECall (lit "get") []);
   ECall (lit "println") [EStr (lit "{s}"); EField (EIdent (lit "r")) (lit "status")];
   EIf (EBin (op KGt ">") (ECall (lit "length") [EField (EIdent (lit "r")) (lit "body")]) (EInt 10))
     [ELet (lit "n") (EBin (op KBx "^") (EField (EIdent (lit "r")) (lit "status")) (EInt 1))]
     [ELet (lit "n") (EInt 0)];
   EBin (op KBo "|") (EIdent (lit "n")) (EInt 2)].
Definition suite_requests : amap (str * list expr) :=
  [(lit "get", (lit "GET http://{base}/", [EBin (op KEq "==") (EIdent (lit "status")) (EInt 200)]))].
Definition suite_source : source := Source [ELet (lit "base") (EStr (lit "h"))] suite_requests [(lit "a", suite_body)].
Lemma suite_parses : parse suite_text = Ok suite_source.
Proof. vm_compute. reflexivity. Qed.
Definition after_setup : scope := with_var (lit "base") [TStr] unknown.
Lemma setup_typed : typed_block suite_requests unknown [TNull] [ELet (lit "base") (EStr (lit "h"))] [TStr] after_setup.
Proof. eapply tb_cons; [|constructor]. constructor. constructor. Qed.
Definition with_r : scope := with_var (lit "r") [TAnswer] after_setup.
Definition with_n : scope := with_var (lit "n") [TInt] with_r.
Lemma weaker_refl G : weaker G G.
Proof. intros n T E. exists T. split; auto. apply incl_refl. Qed.
Lemma r_status : typed suite_requests with_r (EField (EIdent (lit "r")) (lit "status")) [TInt] with_r.
Proof. eapply ty_member; [constructor; reflexivity|]. intros a [<-|[]]. exists TInt. split; [now left|constructor]. Qed.
Lemma suite_typed : typed_block suite_requests after_setup [TNull] suite_body [TInt] with_n.
Proof.
  assert (S : scan (lit "{s}") [Hole (lit "s")]).
  { apply (sc_hole (lit "{s}") (lit "s") [] []); [|constructor]. split; [exists 115%N, []; split; [reflexivity|]; split; [right; left; split; vm_compute; discriminate|constructor]|].
    exists [], []. repeat split; constructor. }
  eapply tb_cons; [apply ty_let; eapply ty_answer; [constructor|reflexivity|reflexivity]|]. fold with_r.
  eapply tb_cons; [eapply ty_print; [right; left; reflexivity|reflexivity|exact S|reflexivity|econstructor; [exact r_status|constructor]]|].
  eapply tb_cons.
  { eapply (ty_if _ _ _ _ _ _ [TInt] [TInt] with_r with_n with_n with_n).
    - eapply ty_binary with (V := [TBool]); [cbn; tauto| |constructor|].
      + apply ty_length with (T := [TStr]); [reflexivity| |intros x [<-|[]]; now left].
        eapply ty_member; [constructor; reflexivity|]. intros a [<-|[]]. exists TStr. split; [now left|constructor; cbn; tauto].
      + intros a b [<-|[]] [<-|[]]. exists TBool. split; [now left|constructor; cbn; tauto].
    - eapply tb_cons; [|constructor]. apply ty_let. eapply ty_binary; [cbn; tauto|exact r_status|constructor|].
      intros a b [<-|[]] [<-|[]]. exists TInt. split; [now left|constructor; cbn; tauto].
    - eapply tb_cons; [|constructor]. apply ty_let. constructor.
    - apply weaker_refl.
    - apply weaker_refl. }
  eapply tb_cons; [|constructor]. eapply ty_binary; [cbn; tauto|constructor; reflexivity|constructor|].
  intros a b [<-|[]] [<-|[]]. exists TInt. split; [now left|constructor; cbn; tauto].
Qed.

Ltac harmless := repeat first [exact I|apply Forall_nil|apply Forall_cons|apply everywhere_eq|split|
  match goal with |- ~ In _ _ => let H := fresh in intros H; cbn in H; repeat (destruct H as [H|H]; [discriminate H|]); exact H end|progress cbn].
Lemma suite_harmless : Forall (no_risk true) (s_exprs suite_source) /\ Forall (no_risk true) suite_body /\
  (forall n template asserts e, mget n suite_requests = Some (template, asserts) -> In e asserts -> no_risk true e).
Proof.
  split; [unfold no_risk; harmless|]. split; [unfold suite_body, no_risk; harmless|].
  intros n t as_ e G J. cbn [suite_requests mget] in G. match type of G with context [str_eqb ?a ?b] => destruct (str_eqb a b) end; [|discriminate]. inversion G; subst. destruct J as [<-|[]].
  unfold no_risk. harmless.
Qed.
Lemma suite_example : parse suite_text = Ok suite_source /\ typed_block (s_requests suite_source) unknown [TNull] (s_exprs suite_source) [TStr] after_setup /\
  typed_block (s_requests suite_source) after_setup [TNull] suite_body [TInt] with_n /\ weaker after_setup with_n /\
  steady online /\ readable_bodies online /\ h_checks (e_host online) = true /\ Forall (no_risk true) (s_exprs suite_source) /\ Forall (no_risk true) suite_body.
Proof.
  split; [exact suite_parses|]. split; [exact setup_typed|]. split; [exact suite_typed|]. split.
  - intros n T E. exists T. split; [|apply incl_refl]. unfold after_setup, with_n, with_r, with_var, unknown in *.
    destruct (list_eq_dec N.eq_dec (lit "base") n) as [<-|D]; [|discriminate E]. injection E as <-. reflexivity.
  - split; [apply safe_example|]. split; [apply safe_example|]. split; [reflexivity|]. split; apply suite_harmless.
Qed.
(** a field of the document in the answer cannot be relied upon *)
Definition empty_reply : env := Env (some_host true) (fun _ => true) (fun _ _ => Exchange 0 0 (inl 1%N) 3 None 4 5 (Reader (utf8 (lit "HTTP/1.1 204 None" ++ [13; 10; 13; 10]%N)) None) 9 10 11).
Lemma json_missing : exists w es reqs s e, steady w /\ readable_bodies w /\ typed_block reqs unknown [TNull] [ELet (lit "r") (ECall (lit "get") [])] [TAnswer] (with_var (lit "r") [TAnswer] unknown) /\
  es = [ELet (lit "r") (ECall (lit "get") []); EField (EField (EIdent (lit "r")) (lit "json")) (lit "n")] /\ c_reqs (s_ctx s) = reqs /\
  Forall (no_risk (h_checks (e_host w))) es /\ no_risk_requests (h_checks (e_host w)) s /\ fst (eval_block w es s) = Err e.
Proof.
  exists empty_reply, [ELet (lit "r") (ECall (lit "get") []); EField (EField (EIdent (lit "r")) (lit "json")) (lit "n")], [(lit "get", (lit "GET http://h/", []))], (St (Ctx [] [(lit "get", (lit "GET http://h/", []))] []) []).
  eexists. split; [|split; [|split; [|split; [|split; [|split; [|split]]]]]].
  - intros tr msg. cbn. unfold ordered. cbn. repeat split; try lia. intros d [= <-]. lia.
  - intros tr msg rs H. vm_compute in H. inversion H; subst. apply no_bangb_ok. vm_compute. reflexivity.
  - eapply tb_cons; [|constructor]. apply ty_let. eapply ty_answer; [constructor|reflexivity|reflexivity].
  - reflexivity.
  - reflexivity.
  - unfold no_risk. harmless.
  - intros n t as_ e G J. cbn [s_ctx c_reqs mget] in G. match type of G with context [str_eqb ?a ?b] => destruct (str_eqb a b) end; [|discriminate]. inversion G; subst. destruct J.
  - vm_compute. reflexivity.
Qed.
