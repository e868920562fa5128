(** Proofs about a suite of variables, a request and a test, from its text to what is sent. *)
From Verif Require Import TextProofs TemplateProofs LexOneProofs LexerProofs LayoutProofs EvaluatorProofs EvaluatorTop ReadComplete SpecReading ByLineProofs ArrivesProofs EvalExamples
  ProcessTop ProcessOnce ProcessRun ProcessProofs ProcessEnds ProcessLaunch SpecProcess SpecLayout SpecArrives.
From Coq Require Import Lia.
Open Scope N_scope.

(** ** tokens *)
Lemma seg_next c w t e r : spells (c :: w) t -> splits e -> segment ((c :: w) ++ e :: r) = t :: segment (e :: r).
Proof.
  intros S P. pose proof (maximal_before_ws c w t [] S (or_introl eq_refl)) as M. pose proof (maximal_extend c w t [] e r S M P) as M'.
  cbn [app] in *. erewrite segment_one; [|apply is_ws_false; eapply spells_not_ws; eauto|eapply lex_one_complete; eauto]. now destruct t.
Qed.
Lemma name_spells n : new_name n -> exists c w, n = c :: w /\ spells n (Tok KIdent n).
Proof. intros [(c & s & -> & L & F) K]. exists c, s. split; auto. now apply sp_ident. Qed.
Lemma seg_name n e r : new_name n -> splits e -> segment (n ++ e :: r) = Tok KIdent n :: segment (e :: r).
Proof. intros N P. destruct (name_spells n N) as (c & w & -> & S). now apply seg_next. Qed.
Lemma splits32 : splits 32. Proof. apply ws_splits, is_ws_iff. reflexivity. Qed.
Lemma splits10 : splits 10. Proof. apply ws_splits, is_ws_iff. reflexivity. Qed.
Lemma splits_in e : In e (lone ++ quotes) -> splits e. Proof. apply lone_splits. Qed.
Lemma seg_space r : segment (32 :: r) = segment r. Proof. apply segment_ws, is_ws_iff. reflexivity. Qed.
Lemma seg_line r : segment (10 :: r) = segment r. Proof. apply segment_ws, is_ws_iff. reflexivity. Qed.
Lemma seg_word k (s : String.string) r : In (k, lit s) (operators ++ keywords) -> segment (lit s ++ 32 :: r) = op k s :: segment r.
Proof.
  intros I. assert (S : spells (lit s) (Tok k (lit s))).
  { apply in_app_or in I. destruct I as [I|I]; [now apply sp_op|now apply sp_keyword]. }
  destruct (spells_nonempty _ _ S) as (c & w & E). rewrite E in S. pose proof (seg_next _ _ _ 32 r S splits32) as Q. rewrite seg_space, <- E in Q. exact Q.
Qed.
Arguments seg_word k s%string_scope r _.
Lemma seg_quoted k d body e r : In (k, d) delimiters -> ~ In d body -> splits e -> segment (d :: body ++ d :: e :: r) = Tok k body :: segment (e :: r).
Proof.
  intros I N P. pose proof (sp_quoted k d body I N) as S. pose proof (seg_next _ _ _ e r S P) as Q. cbn [app] in Q. now rewrite <- app_assoc in Q.
Qed.
Lemma seg_lone k c r : In (k, [c]) operators -> In c lone -> segment (c :: r) = Tok k [c] :: segment r.
Proof.
  intros I L. assert (I' : In c (lit ",;:(){}[]")) by exact L. cbn in I'. unfold operators in I; simpl in I.
  decompose [or] I'; try contradiction; subst; decompose [or] I; try contradiction;
    match goal with H : (_, _) = (_, _) |- _ => inversion H; subst end; apply segment_one; reflexivity.
Qed.
Definition let_tokens (xv : str * str) : list token := [op KLet "let"; Tok KIdent (fst xv); op KAssign "="; Tok KString (snd xv); op KSemi ";"].
Lemma seg_definitions vars r template rest : definable vars r template ->
  segment (definitions vars r template ++ rest) = flat_map let_tokens vars ++ [op KRequest "request"; Tok KIdent r; Tok KTemplate template] ++ segment rest.
Proof.
  intros (V & R & T). unfold definitions. rewrite <- app_assoc. induction V as [|[x v] vars [X Q] V IH]; cbn [flat_map app].
  - rewrite <- !app_assoc.
    change (lit "`") with [96]. change (lit "request ") with (lit "request" ++ [32]). rewrite <- !app_assoc. cbn [app].
    rewrite (seg_word KRequest "request") by (vm_compute; tauto). rewrite (seg_name r 96) by (auto; apply splits_in; vm_compute; tauto).
    rewrite (seg_quoted KTemplate) by (auto using splits10; vm_compute; tauto). now rewrite seg_line.
  - cbn [fst snd] in *. rewrite <- !app_assoc in *.
    change (lit "let ") with (lit "let" ++ [32]). rewrite <- !app_assoc. cbn [app].
    rewrite (seg_word KLet "let") by (vm_compute; tauto). change (lit " = """) with (32 :: lit "=" ++ [32; 34]). cbn [app]. rewrite <- !app_assoc. cbn [app].
    rewrite (seg_name x 32) by (auto using splits32). rewrite seg_space, (seg_word KAssign "=") by (vm_compute; tauto).
    change (lit """;") with [34; 59]. cbn [app]. rewrite (seg_quoted KString) by (auto; try (vm_compute; tauto); apply splits_in; vm_compute; tauto).
    rewrite (seg_lone KSemi) by (vm_compute; tauto). rewrite seg_line. cbn [app let_tokens fst snd]. do 5 f_equal. exact IH.
Qed.

(** ** reading *)
Definition let_item (xv : str * str) : item := IExpr (ELet (fst xv) (EStr (snd xv))).
Lemma reads_lets vars is w : reads_items is w -> reads_items (map let_item vars ++ is) (flat_map let_tokens vars ++ w).
Proof.
  intros R. induction vars as [|[x v] vars IH]; cbn [map flat_map app]; auto.
  change (let_tokens (x, v)) with ((op KLet "let" :: Tok KIdent x :: op KAssign "=" :: [Tok KString v] ++ [op KSemi ";"])).
  rewrite <- app_assoc. apply rs_next; auto. apply rt_expr; [apply (rd_let_semi _ x (EStr v) [Tok KString v]), rd_str|intros _; exact I].
Qed.
Lemma reads_definitions vars r template is w : first w KEof <> KLs -> reads_items is w ->
  reads_items (map let_item vars ++ IRequest r template [] :: is) (flat_map let_tokens vars ++ [op KRequest "request"; Tok KIdent r; Tok KTemplate template] ++ w).
Proof. intros F R. apply reads_lets. apply rs_next; auto. now apply rt_request. Qed.
Lemma lets_exprs vars is : item_exprs (map let_item vars ++ is) = map (fun xv => ELet (fst xv) (EStr (snd xv))) vars ++ item_exprs is.
Proof. induction vars as [|x vars IH]; [reflexivity|]. cbn [map app]. unfold item_exprs, item_requests, item_tests, let_item in *. cbn [flat_map app map]. first [exact IH|apply f_equal; exact IH]. Qed.
Lemma lets_requests vars is : item_requests (map let_item vars ++ is) = item_requests is.
Proof. induction vars as [|x vars IH]; [reflexivity|]. cbn [map app]. unfold item_exprs, item_requests, item_tests, let_item in *. cbn [flat_map app map]. first [exact IH|apply f_equal; exact IH]. Qed.
Lemma lets_tests vars is : item_tests (map let_item vars ++ is) = item_tests is.
Proof. induction vars as [|x vars IH]; [reflexivity|]. cbn [map app]. unfold item_exprs, item_requests, item_tests, let_item in *. cbn [flat_map app map]. first [exact IH|apply f_equal; exact IH]. Qed.
Lemma read_suite text vars r template is w : definable vars r template -> segment text = flat_map let_tokens vars ++ [op KRequest "request"; Tok KIdent r; Tok KTemplate template] ++ w ++ [Tok KEof []] ->
  first w KEof <> KLs -> reads_items is w -> item_requests is = [] ->
  exists src, parse text = Ok src /\ s_exprs src = map (fun xv => ELet (fst xv) (EStr (snd xv))) vars ++ item_exprs is /\
    mget r (s_requests src) = Some (template, []) /\ forall n b, mget n (s_tests src) = Some b <-> last_def n (item_tests is) b.
Proof.
  intros D S F R Q. pose proof (reads_definitions vars r template is w F R) as I.
  destruct (proj2 (accepted text)) as [src P]. { eexists _, _. split; [|exact I]. rewrite S, <- !app_assoc. reflexivity. }
  assert (S' : segment text = (flat_map let_tokens vars ++ [op KRequest "request"; Tok KIdent r; Tok KTemplate template] ++ w) ++ [Tok KEof []]) by (rewrite S, <- !app_assoc; reflexivity).
  destruct (read_as _ _ _ _ P S' I) as (E & M & T). exists src. split; auto. rewrite lets_exprs in E. rewrite lets_requests in M. rewrite lets_tests in T.
  split; auto. split; auto. apply M. cbn [item_requests flat_map app]. exists [], []. change (flat_map _ is) with (item_requests is). rewrite Q. split; auto.
Qed.

(** ** evaluation *)
Definition with_vars (vars : list (str * str)) (c : ctx) : ctx := Ctx (fold_left (fun m xv => mset (fst xv) (VStr (snd xv)) m) vars (c_vars c)) (c_reqs c) (c_recs c).
Lemma lets_eval w vars : forall c tr, exists vs, in_order w (map (fun xv => ELet (fst xv) (EStr (snd xv))) vars) (St c tr) vs (St (with_vars vars c) tr).
Proof.
  induction vars as [|[x v] vars IH]; intros c tr; cbn [map].
  - exists []. destruct c. constructor.
  - destruct (IH (Ctx (mset x (VStr v) (c_vars c)) (c_reqs c) (c_recs c)) tr) as [vs E]. exists (VStr v :: vs). econstructor; [|exact E]. reflexivity.
Qed.
Lemma vars_get vars : forall n m,
  (forall t, last_def n vars t -> mget n (fold_left (fun m xv => mset (fst xv) (VStr (snd xv)) m) vars m) = Some (VStr t)) /\
  (~ In n (map fst vars) -> mget n (fold_left (fun m xv => mset (fst xv) (VStr (snd xv)) m) vars m) = mget n m).
Proof.
  induction vars as [|[x v] vars IH]; intros n m; cbn [fold_left map fst snd].
  - split; auto. intros t (a & b & E & _). destruct a; discriminate.
  - destruct (IH n (mset x (VStr v) m)) as [A B]. split.
    + intros t (a & b & E & N). destruct a as [|y a]; cbn in E; inversion E; subst.
      * rewrite B by auto. apply mget_mset_same.
      * apply A. exists a, b. auto.
    + intros N. rewrite B by (intros X; apply N; now right). apply mget_mset_other. intros ->. apply N. now left.
Qed.
Lemma shown_text w c vars n t : (forall x, ~ In x (map fst vars) -> mget x (c_vars c) = None) -> text_of vars n t -> shown w (with_vars vars c) n = t.
Proof.
  intros U [L|[N ->]]; unfold shown, with_vars; cbn [c_vars]; destruct (vars_get vars n (c_vars c)) as [A B].
  - now rewrite (A _ L).
  - now rewrite (B N), (U _ N).
Qed.
Lemma filled_message w c vars template msg : (forall x, ~ In x (map fst vars) -> mget x (c_vars c) = None) -> filled vars template msg -> message_of w (with_vars vars c) template msg.
Proof.
  intros U (ps & ts & S & F & ->). exists ps. split; auto. f_equal. clear S. induction F as [|x y l l' X F IH]; cbn [map]; auto. rewrite (shown_text w c vars x y U X). now apply f_equal.
Qed.
Lemma messages_app a b : messages (a ++ b) = messages a ++ messages b.
Proof. apply flat_map_app. Qed.
Lemma messages_none tr : sent tr = 0%nat -> messages tr = [].
Proof. induction tr as [|[]]; cbn; auto; discriminate. Qed.
(** one call *)
Lemma call_sends w r s template msg : mget r (c_reqs (s_ctx s)) = Some (template, []) -> message_of w (s_ctx s) template msg ->
  exists o recs pr, sent pr = 0%nat /\ eval_block w [ECall r []] s =
    (o, St (Ctx (c_vars (s_ctx s)) (c_reqs (s_ctx s)) (c_recs (s_ctx s) ++ recs)) (s_trace s ++ Sent msg :: pr)) /\ (answered w msg -> exists v, o = Ok v).
Proof.
  intros M Q. destruct (runs_request w r [] s [] s template [] msg (io_nil w s) M Q) as (o & recs & pr & S & _ & E).
  exists o, recs, pr. split; auto. rewrite block_one. split; auto. intros A. destruct (A (s_trace s)) as (rq & rs & t & e & m & C & T).
  rewrite (call_request _ _ _ _ _ _ _ _ (io_nil w s) M) in E. unfold request_call in E. cbv zeta in E.
  rewrite (message_unique _ _ _ _ _ (message_substitute w (s_ctx s) template) Q) in E. rewrite C, T in E. cbn in E. injection E as <- _ _. eauto.
Qed.
Theorem suite_eval w vars r template msg : definable vars r template -> filled vars template msg ->
  exists o s, script w (definitions vars r template ++ r ++ lit "()") = Some (o, s) /\ messages (s_trace s) = [msg].
Proof.
  intros D F. pose proof D as (_ & R & _).
  assert (S : segment (definitions vars r template ++ r ++ lit "()") = flat_map let_tokens vars ++ [op KRequest "request"; Tok KIdent r; Tok KTemplate template] ++ [Tok KIdent r; op KLp "("; op KRp ")"] ++ [Tok KEof []]).
  { rewrite (seg_definitions _ _ _ _ D). change (lit "()") with [40; 41]. rewrite (seg_name r 40) by (auto; apply splits_in; vm_compute; tauto). reflexivity. }
  assert (I : reads_items [IExpr (ECall r [])] [Tok KIdent r; op KLp "("; op KRp ")"]).
  { apply (rs_next _ [Tok KIdent r; op KLp "("; op KRp ")"] [] []); [|constructor]. apply rt_expr; [apply (rd_call _ r [] []); constructor|].
    intros [[n (l & N & X)]|X]; exfalso; cbn in X. 2: { decompose [or] X; try contradiction; discriminate. }
    do 11 (destruct n as [|n]; [cbn in N; try discriminate N; injection N as <-; cbn in X; decompose [or] X; try contradiction; discriminate|]). cbn in N. destruct n; discriminate. }
  destruct (read_suite _ vars r template _ _ D S ltac:(discriminate) I eq_refl) as (src & P & E & M & _). unfold script. rewrite P, E.
  cbn [item_exprs flat_map app]. rewrite block_app by discriminate.
  destruct (lets_eval w vars (ctx_extend ctx_new (s_requests src)) []) as [vs L].
  assert (B : exists v, eval_block w (map (fun xv => ELet (fst xv) (EStr (snd xv))) vars) (St (ctx_extend ctx_new (s_requests src)) []) = (Ok v, St (with_vars vars (ctx_extend ctx_new (s_requests src))) [])).
  { eexists. unfold eval_block. exact (exprs_in_order _ _ _ _ _ L VNull). }
  destruct B as [v ->].
  assert (ND : NoDup (map fst (s_requests src))) by (apply ParserTop.collected in P; destruct P as (is & u & _ & _ & _ & _ & _ & N & _); exact N).
  destruct (call_sends w r (St (with_vars vars (ctx_extend ctx_new (s_requests src))) []) template msg) as (o & recs & pr & Sp & Q & _).
  { cbn [s_ctx with_vars c_reqs]. unfold ctx_extend. cbn [c_reqs ctx_new]. rewrite extend_get by auto. now rewrite M. }
  { apply filled_message; auto. }
  rewrite Q. eexists _, _. split; [reflexivity|]. cbn [s_trace app messages flat_map]. f_equal. now apply messages_none.
Qed.

(** ** a run *)
Lemma over_call k r : In k [KEof; KRb; KSemi] -> SpecReading.over k (ECall r []).
Proof.
  intros K [[n (l & N & X)]|X]; exfalso.
  - do 10 (destruct n as [|n]; [cbn in N; injection N as <-; cbn in K, X; decompose [or] K; subst; decompose [or] X; try contradiction; discriminate|]).
    cbn in N. destruct n; discriminate.
  - cbn in K, X. decompose [or] K; subst; decompose [or] X; try contradiction; discriminate.
Qed.
Lemma suite_loads w root vars r template t : definable vars r template -> new_name t -> read_node (fst root) (snd root) = Some (test_text vars r template t) ->
  exists src s1, loads w root src s1 /\ mget t (s_tests src) = Some [ECall r []] /\ s_trace s1 = [] /\ s_ctx s1 = with_vars vars (Ctx [] (mextend [] (s_requests src)) []) /\
    mget r (c_reqs (s_ctx s1)) = Some (template, []).
Proof.
  intros D T Rd. pose proof D as (_ & R & _).
  set (w' := op KTest "test" :: Tok KIdent t :: op KLb "{" :: [Tok KIdent r; op KLp "("; op KRp ")"] ++ [op KRb "}"]).
  assert (S : segment (test_text vars r template t) = flat_map let_tokens vars ++ [op KRequest "request"; Tok KIdent r; Tok KTemplate template] ++ w' ++ [Tok KEof []]).
  { unfold test_text. rewrite (seg_definitions _ _ _ _ D). change (lit "test ") with (lit "test" ++ [32]). rewrite <- !app_assoc. cbn [app].
    rewrite (seg_word KTest "test") by (vm_compute; tauto). change (lit " { ") with [32; 123; 32]. cbn [app]. rewrite (seg_name t 32) by (auto using splits32).
    rewrite seg_space, (seg_lone KLb) by (vm_compute; tauto). rewrite seg_space. change (lit "() }") with [40; 41; 32; 125].
    rewrite (seg_name r 40) by (auto; apply splits_in; vm_compute; tauto). reflexivity. }
  assert (I : reads_items [ITest t [ECall r []]] w').
  { rewrite <- (app_nil_r w'). apply rs_next; [|constructor]. apply rt_test.
    apply (rb_next _ [Tok KIdent r; op KLp "("; op KRp ")"] [] []); [apply (rd_call _ r [] []); constructor|apply over_call; cbn; tauto|constructor]. }
  destruct (read_suite _ vars r template _ _ D S ltac:(discriminate) I eq_refl) as (src & P & E & M & Ts). cbn [item_exprs flat_map] in E. rewrite app_nil_r in E.
  destruct (lets_eval w vars (Ctx [] (mextend [] (s_requests src)) []) []) as [vs L].
  exists src, (St (with_vars vars (Ctx [] (mextend [] (s_requests src)) [])) []). split.
  { exists (test_text vars r template t). eexists. split; auto. split; auto. rewrite E. unfold eval_block. exact (exprs_in_order _ _ _ _ _ L VNull). }
  split. { apply Ts. exists [], []. auto. } split; auto. split; auto.
  assert (ND : NoDup (map fst (s_requests src))) by (apply ParserTop.collected in P; destruct P as (is & u & _ & _ & _ & _ & _ & N & _); exact N).
  cbn [s_ctx with_vars c_reqs]. rewrite extend_get by auto. now rewrite M.
Qed.
Lemma message_vars w c c' t m : c_vars c = c_vars c' -> message_of w c t m -> message_of w c' t m.
Proof.
  intros E (ps & S & ->). exists ps. split; auto. f_equal. apply map_ext. intros n. unfold shown. now rewrite E.
Qed.
Lemma messages_lines rs : messages (SpecProcess.lines rs) = [].
Proof. unfold SpecProcess.lines. induction rs; cbn; auto. Qed.
Lemma repeat_end {A} (x : A) n : repeat x n ++ [x] = repeat x (S n).
Proof. induction n as [|n IH]; cbn in *; congruence. Qed.
Lemma iterated_messages w r c template msg : mget r (c_reqs c) = Some (template, []) -> message_of w c template msg ->
  forall k s bs, iterated w [ECall r []] c k s bs -> c_vars (s_ctx s) = c_vars c /\ c_reqs (s_ctx s) = c_reqs c /\ messages (s_trace s) = repeat msg (N.to_nat k).
Proof.
  intros M Q. induction 1 as [|k s bs v s1 It (V & R & T) E]; [auto|].
  destruct (call_sends w r s template msg) as (o & recs & pr & Sp & E' & _); [now rewrite R|eapply message_vars; [symmetry; exact V|exact Q]|].
  rewrite E in E'. injection E' as _ ->. cbn [s_ctx c_vars c_reqs s_trace c_recs]. split; auto. split; auto.
  fold (SpecProcess.lines (c_recs (s_ctx s) ++ recs)). rewrite !messages_app. change (messages (Sent msg :: pr)) with (msg :: messages pr).
  rewrite T, (messages_none _ Sp), messages_lines, app_nil_r, N2Nat.inj_add. cbn [N.to_nat]. rewrite Nat.add_comm. apply repeat_end.
Qed.
Lemma repeat_all {A} (x : A) n : Forall (eq x) (repeat x n).
Proof. induction n; cbn; auto. Qed.
Lemma after_none w o s : messages (afterwards w o s) = [].
Proof. destruct o; cbn; auto. apply messages_lines. Qed.
Theorem suite_run iter w root threads duration number record pod d g vars r template t msg p :
  definable vars r template -> new_name t -> filled vars template msg -> read_node (fst root) (snd root) = Some (test_text vars r template t) -> threads <> 0 ->
  goes g (launch iter w root (Some t) threads duration number record pod d) p ->
  events_of Main (p_log p) = [] /\
  (forall id, threads <= id -> events_of (Tester id) (p_log p) = []) /\
  (forall id, Forall (eq msg) (messages (events_of (Tester id) (p_log p)))) /\
  (p_main p = Gone true -> p_flag p = true -> (forall id, answered (g_world g id) msg) ->
     forall id, id < threads -> messages (events_of (Tester id) (p_log p)) = repeat msg (N.to_nat (share duration number threads))).
Proof.
  intros D T F Rd Th G. destruct (suite_loads w root vars r template t D T Rd) as (src & s1 & L & B & Tr & C & M).
  assert (Q : forall w', message_of w' (s_ctx s1) template msg) by (intros w'; rewrite C; now apply filled_message).
  destruct (named_log iter w root t threads duration number record pod d g src s1 _ p L B Th G) as ((l & El & Fl) & Z & U).
  split. { rewrite El, Tr. cbn [map app]. unfold events_of. clear El. induction Fl as [|x l X Fl IH]; cbn; auto. destruct (who_dec (fst x) Main); [contradiction|exact IH]. }
  split; [exact Z|]. split.
  { intros id. destruct (N.le_gt_cases threads id) as [X|X]; [rewrite (Z id X); constructor|].
    destruct (U id X) as (bs & s & It & _ & W). pose proof (iterated_messages _ _ _ _ _ M (Q (g_world g id)) _ _ _ It) as (V & R & Ms).
    destruct W as [->|(_ & o & s2 & E & (x & Ex) & (y & Ey))]; [rewrite Ms; apply repeat_all|].
    destruct (call_sends (g_world g id) r s template msg) as (o' & recs & pr & Sp & E' & _); [now rewrite R|eapply message_vars; [symmetry; exact V|apply Q]|].
    rewrite E in E'. injection E' as _ ->. apply (f_equal messages) in Ey. rewrite !messages_app, after_none in Ey. cbn [s_trace] in Ey. rewrite messages_app in Ey.
    change (messages (Sent msg :: pr)) with (msg :: messages pr) in Ey. rewrite (messages_none _ Sp), Ms, app_nil_r in Ey.
    assert (A : Forall (eq msg) (messages (events_of (Tester id) (p_log p)) ++ messages y)). { rewrite <- Ey. apply Forall_app. split; [apply repeat_all|]. constructor; auto. }
    apply Forall_app in A. apply A. }
  intros Gn Fg An id X. destruct (named_end iter w root t threads duration number record pod d g src s1 _ p L B Th G Gn) as (bss & Lb & H & _).
  destruct (nth_error bss (N.to_nat id)) as [bs|] eqn:Nb. 2: { apply nth_error_None in Nb. lia. }
  destruct (H id bs Nb) as [(s & It & Le & W) _]. pose proof (iterated_messages _ _ _ _ _ M (Q (g_world g id)) _ _ _ It) as (V & R & Ms).
  rewrite Fg in W. destruct W as [[-> [W|W]]|(Lt & o & s2 & E & O & _)]; [now rewrite Ms, W|discriminate|].
  destruct (call_sends (g_world g id) r s template msg) as (o' & recs & pr & Sp & E' & Y); [now rewrite R|eapply message_vars; [symmetry; exact V|apply Q]|].
  rewrite E in E'. injection E' as -> _. destruct (Y (An id)) as [v ->]. destruct O as [O|[e O]]; discriminate.
Qed.

(** ** the bytes *)
Lemma last_defined {V} n (l : list (str * V)) : In n (map fst l) -> exists v, last_def n l v.
Proof.
  induction l as [|[k v] l IH]; cbn [map In fst]; [contradiction|]. intros H. destruct (in_dec (list_eq_dec N.eq_dec) n (map fst l)) as [I|I].
  - destruct (IH I) as (x & a & b & -> & N). exists x, ((k, v) :: a), b. auto.
  - destruct H as [->|H]; [|contradiction]. exists v, [], l. auto.
Qed.
Lemma message_filled w vars template msg : message_of w (with_vars vars ctx_new) template msg <-> filled vars template msg.
Proof.
  split; [|now apply filled_message]. intros (ps & S & ->). exists ps, (map (shown w (with_vars vars ctx_new)) (holes ps)). split; auto. split; auto.
  induction (holes ps) as [|n ns IH]; cbn [map]; constructor; auto.
  assert (X : exists t, text_of vars n t). { destruct (in_dec (list_eq_dec N.eq_dec) n (map fst vars)) as [I|I]; [destruct (last_defined _ _ I) as [t L]; exists t; now left|exists (lit "null"); now right]. }
  destruct X as [t X]. now rewrite (shown_text w ctx_new vars n t).
Qed.
Theorem suite_bytes vars prepare enc a b me at_ address ve indent gap hts hs bts body ct :
  blank a -> blank b -> spaces indent -> spaces gap -> one_line_holes (a ++ written me at_ ve indent gap hts bts ++ b) ->
  filled vars at_ address -> Forall2 (fun t h => filled vars (fst t) (fst h) /\ filled vars (snd t) (snd h)) hts hs -> Forall2 (filled vars) bts body ->
  address <> [] -> Forall (fun c => ~ ws c) address -> Forall plain_header hs -> plain_body body -> content_type hs ct ->
  ct <> Some (lit "application/x-www-form-urlencoded") -> ct <> Some (lit "multipart/form-data") ->
  let msg := a ++ written me address ve indent gap hs body ++ b in scalars msg ->
  filled vars (a ++ written me at_ ve indent gap hts bts ++ b) msg /\
  fst (request_from prepare msg) = Request me (url_from address) ve hs (List.concat body) /\
  request_bytes enc (fst (request_from prepare msg)) (snd (request_from prepare msg)) =
    utf8 (head_sent me (u_path (url_from address)) ve hs ++ List.concat body).
Proof.
  intros Ba Bb I G O A H B An Aw Hp Bp C C1 C2 msg S. split; [|now apply (WrittenProofs.written_sent prepare enc a b me address ve indent gap hs body ct)].
  apply (message_filled online). apply written_filled; auto.
  - now apply message_filled.
  - clear -H. induction H as [|t h hts hs [X Y] H IH]; constructor; auto. split; now apply message_filled.
  - clear -B. induction B; constructor; auto. now apply message_filled.
Qed.

(** ** an example *)
Fixpoint one_line_check (t : str) : bool :=
  (match match_here t with Some len => negb (existsb (N.eqb 10) (firstn len t)) | None => true end) &&
  match t with [] => true | _ :: t' => one_line_check t' end.
Lemma one_line_checked t : one_line_check t = true -> one_line_holes t.
Proof.
  intros H x p n y -> Hp I. revert H. induction x as [|c x IH]; cbn [app].
  - destruct (p ++ y) as [|k r] eqn:E; [destruct (hole_head _ _ Hp) as (q & ->); discriminate|]. cbn [one_line_check]. rewrite <- E, (match_hole p n y Hp).
    rewrite firstn_app, Nat.sub_diag, firstn_all. cbn [firstn]. rewrite app_nil_r. intros H. apply andb_true_iff in H. destruct H as [H _]. apply negb_true_iff in H.
    enough (existsb (N.eqb 10) p = true) by congruence. apply existsb_exists. exists 10. auto.
  - cbn [one_line_check]. intros H. apply andb_true_iff in H. now apply IH.
Qed.
Definition demo_vars : list (str * str) := [(lit "host", lit "h:81"); (lit "id", lit "7"); (lit "id", lit "8")].
Definition demo_body : list str := [lit "{"; lit "  ""n"": {id}, ""m"": ""{nope}"""; lit "}"].
Definition demo_template : str := [10] ++ written Post (lit "http://{host}/a/{ id }") Http11 (lit "  ") [] [(lit "X-Id", lit "v{id}")] demo_body ++ [10].
Definition demo_message : str := [10] ++ written Post (lit "http://h:81/a/8") Http11 (lit "  ") [] [(lit "X-Id", lit "v8")] [lit "{"; lit "  ""n"": 8, ""m"": ""null"""; lit "}"] ++ [10].
Lemma filled_by vars t : filled vars t (substitute (var_text (e_host online) (with_vars vars ctx_new)) t).
Proof. apply (message_filled online). apply message_substitute. Qed.
Lemma new_named n : forallb is_ident_char n = true -> match n with c :: _ => is_ident_start c = true | [] => False end -> keyword n = KIdent -> new_name n.
Proof.
  intros F S K. split.
  - destruct n as [|c n]; [contradiction|]. cbn [forallb] in F. apply andb_true_iff in F. destruct F as [_ F]. exists c, n. split; auto.
    split; [now apply is_ident_start_iff|]. apply Forall_forall. intros x I. apply is_ident_char_iff. rewrite forallb_forall in F. auto.
  - intros k I. pose proof (keyword_kind _ _ I) as E. rewrite K in E. subst k. unfold keywords in I. cbn [In] in I. decompose [or] I; try contradiction; discriminate.
Qed.
Lemma suite_example : definable demo_vars (lit "post") demo_template /\ one_line_holes demo_template /\ filled demo_vars demo_template demo_message /\
  filled demo_vars (lit "http://{host}/a/{ id }") (lit "http://h:81/a/8") /\ filled demo_vars (lit "v{id}") (lit "v8") /\
  Forall2 (filled demo_vars) demo_body [lit "{"; lit "  ""n"": 8, ""m"": ""null"""; lit "}"] /\
  (exists o s, script online (definitions demo_vars (lit "post") demo_template ++ lit "post()") = Some (Ok o, s) /\ messages (s_trace s) = [demo_message]) /\
  request_bytes (fun _ => []) (fst (request_from (fun _ => true) demo_message)) (snd (request_from (fun _ => true) demo_message)) =
    utf8 (lit "POST /a/8 HTTP/1.1" ++ [13; 10] ++ lit "X-Id: v8" ++ [13; 10; 13; 10] ++ lit "{  ""n"": 8, ""m"": ""null""}").
Proof.
  assert (F : forall t m, substitute (var_text (e_host online) (with_vars demo_vars ctx_new)) t = m -> filled demo_vars t m) by (intros t m <-; apply filled_by).
  split. { repeat split; try (repeat constructor; cbn [fst snd]; try (apply new_named; vm_compute; exact I || reflexivity); vm_compute; intuition discriminate); try (apply new_named; vm_compute; reflexivity); try (vm_compute; intuition discriminate). }
  split. { apply one_line_checked. vm_compute. reflexivity. }
  split. { apply F. vm_compute. reflexivity. }
  split. { apply F. vm_compute. reflexivity. }
  split. { apply F. vm_compute. reflexivity. }
  split. { repeat constructor; apply F; vm_compute; reflexivity. }
  split.
  { destruct (script online (definitions demo_vars (lit "post") demo_template ++ lit "post()")) as [[[o|e| |] s]|] eqn:E; vm_compute in E; try discriminate E.
    exists o, s. split; auto. injection E as _ <-. vm_compute. reflexivity. }
  vm_compute. reflexivity.
Qed.
