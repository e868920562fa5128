(** Layout does not matter *)
From Coq Require Import Lia.
From Verif Require Import TextProofs LexOneProofs LexerProofs NewExamples EvalExamples Program SpecSyntax SpecLayout.
Open Scope N_scope.

(** characters that no token but a quotation goes on with *)
Definition splits (e : char) : Prop := ~ digit e /\ e <> 46 /\ ~ letter e /\ forall k x s, In (k, x :: s) operators -> ~ In e s.
Lemma ws_splits e : ws e -> splits e.
Proof.
  intros W. destruct (ws_not_special _ W) as (A & B & C & D & E). repeat split; try tauto.
  intros k x s H I. apply is_ws_iff in W. unfold operators in H; simpl in H; decompose [or] H; try contradiction;
    match goal with X : (_, _) = (_, _) |- _ => inversion X; subst; simpl in I; decompose [or] I; subst; try contradiction; discriminate end.
Qed.
Lemma lone_splits e : In e (lone ++ quotes) -> splits e.
Proof.
  intros W. assert (W' : In e (lit ",;:(){}[]" ++ [34; 96])) by exact W. clear W. cbn in W'.
  repeat split; try (unfold digit, letter; intros H; decompose [or] W'; subst; try contradiction; lia).
  intros k x s H I. unfold operators in H; simpl in H; decompose [or] H; try contradiction;
    match goal with X : (_, _) = (_, _) |- _ => inversion X; subst; simpl in I; decompose [or] I; subst; try contradiction; decompose [or] W'; try contradiction; discriminate end.
Qed.
Lemma maximal_extend c w t rest e r : spells (c :: w) t -> maximal (c :: w) rest -> splits e -> maximal (c :: w) (rest ++ e :: r).
Proof.
  intros S M (Ne1 & Ne2 & Ne3 & Ne4). apply maximal_intro. intros w' t' rest' E S'. rewrite app_assoc in E.
  destruct (app_split _ _ _ _ E) as [(r2 & X & _)|(y & w2 & -> & Y)].
  - specialize (M (c :: w') t' r2). simpl in M. rewrite X in M. specialize (M eq_refl S'). lia.
  - exfalso. simpl in Y. inversion Y; subst y. clear Y. rewrite <- app_assoc in *.
    destruct (spells_cases _ _ _ S') as [(k2 & D' & _)|[(D' & F' & _)|[(D' & F' & _)|[(k2 & b2 & D' & Nb' & E' & _)|(_ & _ & _ & _ & _ & D' & _)]]]].
    + apply op_rest_in in D'. apply (Ne4 _ _ _ D'). apply in_or_app. right. apply in_or_app. right. now left.
    + rewrite app_assoc in F'. apply Forall_app in F'. destruct F' as [_ F']. inversion F'; subst. tauto.
    + rewrite app_assoc in F'. apply Forall_app in F'. destruct F' as [_ F']. inversion F'; subst. tauto.
    + assert (Hw : exists b1, w = b1 ++ [c] /\ ~ In c b1).
      { destruct (spells_cases _ _ _ S) as [(k1 & D & _)|[(D & _)|[(D & _)|[(k1 & b1 & D & Nb & -> & _)|(_ & _ & _ & _ & D & _)]]]].
        - exfalso. apply op_rest_in in D. unfold delimiters in D'; simpl in D'. destruct D' as [[= _ <-]|[[= _ <-]|[]]];
            unfold operators in D; simpl in D; decompose [or] D; try contradiction; discriminate.
        - exfalso. unfold delimiters, digit in *; simpl in D'. destruct D' as [[= _ <-]|[[= _ <-]|[]]]; lia.
        - exfalso. unfold delimiters, letter in *; simpl in D'. destruct D' as [[= _ <-]|[[= _ <-]|[]]]; lia.
        - eauto.
        - exfalso. eapply D; eauto. }
      destruct Hw as (b1 & -> & _). rewrite <- app_assoc in E'. simpl in E'.
      destruct (exists_last (l := rest ++ e :: w2)) as (y & z & Ey); [destruct rest; discriminate|].
      rewrite Ey in E'. rewrite app_comm_cons, app_assoc in E'. apply app_inj_tail in E'. destruct E' as [E' _].
      apply Nb'. rewrite <- E'. apply in_or_app. right. now left.
    + destruct w; [destruct rest|]; discriminate.
Qed.
Lemma closed_before a b e : closed a -> splits e -> forall ts, segment a = ts ++ [Tok KEof []] -> segment (a ++ e :: b) = ts ++ segment (e :: b).
Proof.
  intros Cl Hc. induction Cl; intros ts E.
  - rewrite segment_nil in E. destruct ts as [|t ts]; [reflexivity|]. inversion E. destruct ts; discriminate.
  - rewrite segment_ws in E by assumption. cbn [app]. rewrite (segment_ws _ (s ++ e :: b)) by assumption. auto.
  - destruct (spells_nonempty _ _ H) as (c' & w' & ->).
    assert (Hw : is_ws c' = false) by (apply is_ws_false; eapply spells_not_ws; eauto).
    simpl in E. rewrite (segment_one _ _ _ _ _ Hw (lex_one_complete _ _ _ _ H H0)) in E.
    destruct ts as [|t' ts]; simpl in E.
    { destruct (segment_shape rest) as (ts & Er & _). rewrite Er in E. destruct ts; discriminate. }
    inversion E as [[Et Er]]; subst. specialize (IHCl _ Er).
    rewrite <- app_assoc. simpl.
    rewrite (segment_one _ _ _ _ _ Hw (lex_one_complete _ _ _ _ H (maximal_extend _ _ _ _ e b H H0 Hc))).
    now rewrite IHCl.
Qed.
Lemma blank_between u g v : closed u -> blank g -> g <> [] -> forall ts, segment u = ts ++ [Tok KEof []] -> segment (u ++ g ++ v) = ts ++ segment v.
Proof.
  intros C B N ts S. destruct g as [|c g]; [congruence|]. inversion B; subst. cbn [app]. rewrite (closed_before u (g ++ v) c C (ws_splits _ H1) ts S), segment_ws by assumption. now rewrite blank_segment.
Qed.
Lemma relaid_segment a b : relaid a b -> segment a = segment b.
Proof.
  induction 1 as [a|a b _ IH|a b c _ IH1 _ IH2|u g g' v C B B' N N'|g v B|u g C B|u g c v C B I|u g c v C B I]; try congruence.
  - destruct (segment_shape u) as (ts & S & _). rewrite (blank_between u g v C B N ts S), (blank_between u g' v C B' N' ts S). reflexivity.
  - now apply blank_segment.
  - destruct g as [|c g]; [now rewrite app_nil_r|]. destruct (segment_shape u) as (ts & S & _).
    pose proof (blank_between u (c :: g) [] C B ltac:(discriminate) ts S) as Q. rewrite app_nil_r in Q. rewrite Q, S. reflexivity.
  - destruct g as [|x g]; [reflexivity|]. destruct (segment_shape u) as (ts & S & _).
    rewrite (blank_between u (x :: g) (c :: v) C B ltac:(discriminate) ts S). symmetry. apply closed_before; auto using lone_splits.
  - destruct (segment_shape u) as (ts & S & _). assert (P : splits c) by (apply lone_splits, in_or_app; now left).
    rewrite !(closed_before u _ c C P ts S). f_equal. assert (Q : exists t, forall v, segment (c :: v) = t :: segment v).
    { assert (I' : In c (lit ",;:(){}[]")) by exact I. cbn in I'. decompose [or] I'; try contradiction; subst; eexists; intros; apply segment_one; reflexivity. }
    destruct Q as [t Q]. now rewrite !Q, blank_segment.
Qed.
Theorem relaid_tokens : forall a b, relaid a b -> forall ts, lexes a ts <-> lexes b ts.
Proof. intros a b R ts. apply relaid_segment in R. split; intros L; apply segment_lexes; apply lexes_segment in L; congruence. Qed.
Theorem relaid_parse : forall a b, relaid a b -> parse a = parse b.
Proof. intros a b R. unfold parse. now rewrite (relaid_segment _ _ R). Qed.
Theorem relaid_line : forall w a b s r, relaid a b -> line_done w a s r -> line_done w b s r.
Proof. intros w a b s r R D. pose proof (relaid_parse _ _ R) as P. destruct D; rewrite P in *; solve [econstructor; eassumption]. Qed.
Theorem relaid_suite : forall iter w root root' a b name threads duration number record pod d, relaid a b -> read_node (fst root) (snd root) = Some a -> read_node (fst root') (snd root') = Some b ->
  launch iter w root name threads duration number record pod d = launch iter w root' name threads duration number record pod d.
Proof.
  intros iter w root root' a b name threads duration number record pod d R A B. unfold launch. rewrite A, B. unfold main_test, test_command, test_setup. now rewrite (relaid_parse _ _ R).
Qed.
Lemma no_tokens s : lexes s [] <-> blank s.
Proof.
  split.
  - intros L. remember [] as ts eqn:E. induction L as [|c s ts W L IH| |]; try discriminate; [constructor|]. constructor; [exact W|exact (IH E)].
  - induction 1; constructor; auto.
Qed.
Theorem relaid_session : forall w ls ls' s s', Forall2 (fun x y => match x, y with Some a, Some b => relaid a b /\ a <> lit "exit" /\ b <> lit "exit" | None, None => True | _, _ => False end) ls ls' ->
  session w ls s s' -> session w ls' s s'.
Proof.
  intros w ls ls' s s' F S. revert ls' F. induction S as [s|ls s s' S IH|l ls s s' B S IH|l ls s s1 s' B E D S IH]; intros ls' F; inversion F as [|x y xs ys R F']; subst.
  - constructor.
  - destruct y; [contradiction|]. constructor. auto.
  - destruct y as [b|]; [|contradiction]. destruct R as (R & _ & _). apply se_blank; auto. apply no_tokens. rewrite <- (relaid_tokens _ _ R). now apply no_tokens.
  - destruct y as [b|]; [|contradiction]. destruct R as (R & _ & N). eapply se_line; eauto using relaid_line. rewrite <- no_tokens in *. now rewrite <- (relaid_tokens _ _ R).
Qed.
Theorem relaid_program : forall checks o a b, relaid a b -> whole_program checks o [lit "eval"; lit "--"; a] = whole_program checks o [lit "eval"; lit "--"; b].
Proof.
  intros checks o a b R. 
  assert (P : forall x, parse_main checks [lit "eval"; lit "--"; x] = Runs (EvalText x)) by reflexivity.
  unfold whole_program. rewrite !P. unfold eval_main, command_eval. now rewrite (relaid_parse _ _ R).
Qed.
Lemma one_blank : blank [32].
Proof. constructor; [apply is_ws_iff; reflexivity|constructor]. Qed.
Lemma shut a : (match rev (segment a) with _ :: t :: _ => match tkind t with KString | KTemplate => false | _ => true end | _ => false end) = true -> closed a.
Proof.
  destruct (segment_shape a) as (ts & S & _). intros H. rewrite S, rev_app_distr in H. cbn [rev app] in H.
  destruct (rev ts) as [|t l] eqn:R; [discriminate|]. assert (Q : ts = rev l ++ [t]) by (rewrite <- (rev_involutive ts), R; reflexivity). rewrite Q in S.
  apply (closed_end a _ _ S); intros K; rewrite K in H; discriminate.
Qed.
(** blanks matter elsewhere *)
Theorem layout_matters : exists u g v u' g' v' w,
  ~ closed u /\ blank g /\ parse (u ++ g ++ v) <> parse (u ++ g ++ g ++ v) /\
  closed u' /\ blank g' /\ parse (u' ++ g' ++ v') <> parse (u' ++ v') /\
  blank w /\ (forall s s', ~ session online [Some (lit "exit")] s s') /\ (exists s s', session online [Some (w ++ lit "exit")] s s').
Proof.
  exists (lit "print(""a"), [32], (lit "b"")"), (lit "a <"), [32], (lit "= b"), [32].
  split; [intros C; apply closed_iff with (b := []) (ts := removelast (segment (lit "print(""a"))) in C; [vm_compute in C; discriminate|reflexivity]|].
  split; [exact one_blank|]. split; [vm_compute; discriminate|].
  split; [apply (closed_end _ (removelast (removelast (segment (lit "a <")))) (op KLt "<")); [reflexivity|discriminate|discriminate]|].
  split; [exact one_blank|]. split; [vm_compute; discriminate|].
  split; [exact one_blank|]. split.
  - intros s s' S. inversion S as [| |l ls x y B _|l ls x y z B N]; subst; [|match goal with H : _ <> _ |- _ => apply H; reflexivity end]. inversion B as [|c r W]; subst. apply is_ws_iff in W. discriminate.
  - exists (St ctx_new []). eexists. eapply se_line; [| | |constructor].
    + intros B. inversion B as [|c r _ B']; subst. inversion B' as [|c' r' W]; subst. apply is_ws_iff in W. discriminate.
    + discriminate.
    + eapply ld_error; [vm_compute; reflexivity|vm_compute; reflexivity].
Qed.
Lemma layout_example : relaid (lit "test t{let r=get();}") (lit "test t { let " ++ [10] ++ lit " r=get (); }" ++ [10]).
Proof.
  apply re_then with (lit "test t {let r=get();}"); [apply re_back, (re_before (lit "test t") [32] 123 (lit "let r=get();}")); [apply shut; reflexivity|exact one_blank|cbn; tauto]|].
  apply re_then with (lit "test t { let r=get();}"); [apply re_back, (re_after (lit "test t ") [32] 123 (lit "let r=get();}")); [apply shut; reflexivity|exact one_blank|cbn; tauto]|].
  apply re_then with (lit "test t { let " ++ [10] ++ lit " r=get();}"); [apply (re_blank (lit "test t { let") [32] [32; 10; 32] (lit "r=get();}")); [apply shut; reflexivity|exact one_blank| |discriminate|discriminate]; repeat (constructor; [apply is_ws_iff; reflexivity|]); constructor|].
  apply re_then with (lit "test t { let " ++ [10] ++ lit " r=get ();}"); [apply re_back, (re_before (lit "test t { let " ++ [10] ++ lit " r=get") [32] 40 (lit ");}")); [apply shut; reflexivity|exact one_blank|cbn; tauto]|].
  apply re_then with (lit "test t { let " ++ [10] ++ lit " r=get (); }"); [apply re_back, (re_before (lit "test t { let " ++ [10] ++ lit " r=get ();") [32] 125 []); [apply shut; reflexivity|exact one_blank|cbn; tauto]|].
  apply re_back, (re_end (lit "test t { let " ++ [10] ++ lit " r=get (); }") [10]); [apply shut; reflexivity|]. constructor; [apply is_ws_iff; reflexivity|constructor].
Qed.
