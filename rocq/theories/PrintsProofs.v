(** Proofs about what a suite prints. *)
From Verif Require Import TextProofs ShowProofs TemplateProofs LexOneProofs LexerProofs LayoutProofs EvaluatorProofs EvaluatorTop ReadComplete SpecReading ByLineProofs ArrivesProofs EvalExamples
  NumberProofs FloatOps AssertProofs ValidProofs VerdictProofs LiveProofs SuiteProofs ProcessTop ProcessOnce ProcessRun ProcessProofs ProcessEnds ProcessLaunch SpecProcess SpecLayout SpecPrints.
From Coq Require Import Lia.
Open Scope N_scope.

(** ** tokens of an assertion *)
Definition ends (e : char) : Prop := splits e \/ e = 46.
Lemma name_dot n r : new_name n -> segment (n ++ 46 :: r) = Tok KIdent n :: segment (46 :: r).
Proof.
  intros N. destruct (name_spells n N) as (c & w & -> & S). destruct N as [(c' & s & E & L & F) _]. injection E as <- <-.
  cbn [app]. erewrite segment_one; [|apply is_ws_false; eapply spells_not_ws; eauto|eapply lex_one_complete; [exact S|]]; [reflexivity|].
  apply maximal_intro. intros w' t' rest' E S'.
  destruct (app_split _ _ _ _ E) as [(r2 & -> & _)|(y & w2 & -> & Y)]; [rewrite app_length; lia|]. exfalso. cbn in Y. injection Y as <- _.
  destruct (spells_cases _ _ _ S') as [(k2 & D' & _)|[(D' & F' & _)|[(D' & F' & _)|[(k2 & b2 & D' & Nb' & E' & _)|(_ & _ & _ & _ & _ & D' & _)]]]].
  - apply op_rest_in in D'. unfold letter in L. unfold operators in D'; simpl in D'. decompose [or] D'; try contradiction; match goal with H : (_, _) = (_, _) |- _ => inversion H; subst; lia end.
  - unfold digit, letter in *. lia.
  - apply Forall_app in F'. destruct F' as [_ F']. inversion F'; subst. unfold letter, digit in *. lia.
  - unfold delimiters, letter in *; simpl in D'. destruct D' as [[= _ <-]|[[= _ <-]|[]]]; lia.
  - destruct w; discriminate.
Qed.
Lemma seg_dot r : segment (46 :: r) = op KDot "." :: segment r.
Proof. apply segment_one; reflexivity. Qed.
Lemma seg_digits ds e r : ds <> [] -> Forall digit ds -> splits e -> segment (ds ++ e :: r) = Tok KInteger ds :: segment (e :: r).
Proof. intros N F P. destruct ds as [|c ds]; [contradiction|]. inversion F; subst. apply seg_next; auto. now apply sp_int. Qed.
Lemma splits_lone c : In c lone -> splits c.
Proof. intros I. apply splits_in. apply in_or_app. now left. Qed.
Lemma turns_read ps ts : Forall2 turn_written ps ts -> exists w,
  (forall e r, ends e -> segment (List.concat ts ++ e :: r) = w ++ segment (e :: r)) /\
  (forall e r, ends e -> exists e' r', List.concat ts ++ e :: r = e' :: r' /\ ends e') /\
  forall e0 w0, applicable e0 -> (forall k, SpecReading.reads k e0 w0) ->
    applicable (fold_left access ps e0) /\ forall k, SpecReading.reads k (fold_left access ps e0) (w0 ++ w).
Proof.
  induction 1 as [|p t ps ts T F (w & A & B & C)].
  - exists []. split; [reflexivity|]. split; [intros e r P; exists e, r; auto|]. intros e0 w0 Ap R. rewrite app_nil_r. auto.
  - assert (W : exists w', (forall e r, ends e -> segment (t ++ e :: r) = w' ++ segment (e :: r)) /\
      (exists e' r', t = e' :: r' /\ ends e') /\
      forall e0 w0, applicable e0 -> (forall k, SpecReading.reads k e0 w0) -> applicable (access e0 p) /\ forall k, SpecReading.reads k (access e0 p) (w0 ++ w')).
    { destruct T as [k K|k K|i ds N D E L].
      - exists [op KDot "."; Tok KIdent k]. split; [|split].
        + intros e r P. change (lit ".") with [46]. cbn [app]. rewrite seg_dot. f_equal. destruct P as [P| ->]; [exact (seg_name k e r K P)|exact (name_dot k r K)].
        + eexists _, _. split; [reflexivity|now right].
        + intros e0 w0 Ap R. split; [exact I|]. intros k'. now apply rd_field.
      - exists [op KLs "["; Tok KString k; op KRs "]"]. split; [|split].
        + intros e r P. change (lit "[""") with [91; 34]. change (lit """]") with [34; 93]. rewrite <- !app_assoc. cbn [app].
          rewrite (seg_lone KLs 91) by (vm_compute; tauto). rewrite (seg_quoted KString 34 k 93) by (auto; try apply splits_lone; vm_compute; tauto). rewrite (seg_lone KRs 93) by (vm_compute; tauto). reflexivity.
        + eexists _, _. split; [reflexivity|left; apply splits_lone; vm_compute; tauto].
        + intros e0 w0 Ap R. split; [exact I|]. intros k'. apply (rd_index k' e0 w0 (EStr k) [Tok KString k]); auto. constructor.
      - exists [op KLs "["; Tok KInteger ds; op KRs "]"]. split; [|split].
        + intros e r P. change (lit "[") with [91]. change (lit "]") with [93]. rewrite <- !app_assoc. cbn [app].
          rewrite (seg_lone KLs 91) by (vm_compute; tauto). rewrite (seg_digits ds 93) by (auto; apply splits_lone; vm_compute; tauto). rewrite (seg_lone KRs 93) by (vm_compute; tauto). reflexivity.
        + eexists _, _. split; [reflexivity|left; apply splits_lone; vm_compute; tauto].
        + intros e0 w0 Ap R. split; [exact I|]. intros k'. apply (rd_index k' e0 w0 (EInt (Z.of_N i)) [Tok KInteger ds]); auto. subst i. constructor; auto. lia. }
    destruct W as (w' & A' & (e1 & r1 & -> & P1) & C'). exists (w' ++ w). cbn [List.concat]. split; [|split].
    + intros e r P. destruct (B e r P) as (e' & r' & E & P'). rewrite <- app_assoc, <- app_assoc, <- (A e r P), E. now apply A'.
    + intros e r P. rewrite <- app_assoc. cbn [app]. eauto.
    + intros e0 w0 Ap R. cbn [fold_left]. rewrite app_assoc. destruct (C' e0 w0 Ap R) as [Ap' R']. now apply C.
Qed.
Lemma place_read root ps ts : new_name root -> Forall2 turn_written ps ts -> exists w,
  (forall e r, ends e -> segment (root ++ List.concat ts ++ e :: r) = w ++ segment (e :: r)) /\ forall k, SpecReading.reads k (place root ps) w.
Proof.
  intros N F. destruct (turns_read _ _ F) as (w & A & B & C). exists (Tok KIdent root :: w). split.
  - intros e r P. destruct (B e r P) as (e' & r' & E & P'). cbn [app]. rewrite <- (A e r P), E. destruct P' as [P'| ->]; [now apply seg_name|now apply name_dot].
  - apply (C (EIdent root) [Tok KIdent root]); [exact I|]. constructor.
Qed.
Lemma float_binary l f : float_literal l f -> binary64 f.
Proof. intros (a & b & _ & _ & _ & _ & R & _). eapply rounded_binary64; eauto. Qed.
Lemma literal_read l b : literal_written l b -> literal l /\ edge l = [] /\ exists t,
  (forall e r, splits e -> segment (b ++ e :: r) = t :: segment (e :: r)) /\ forall k, SpecReading.reads k l [t].
Proof.
  destruct 1 as [n ds N D E L|f c ds F D|b|s N S].
  - split; [constructor|]. split; [reflexivity|]. exists (Tok KInteger ds). split; [intros; now apply seg_digits|]. intros k. subst n. constructor; auto. lia.
  - split; [constructor; eapply float_binary; eauto|]. split; [reflexivity|]. exists (Tok KFloat (c :: ds)). split; [|now constructor].
    intros e r P. apply seg_next; auto. destruct F as (x & y & E & Dx & Dy & _).
    assert (Q : Forall (fun z => digit z \/ z = 46) (c :: ds)). { rewrite E. apply Forall_app. split; [eapply Forall_impl; [|exact Dx]; auto|]. constructor; auto. eapply Forall_impl; [|exact Dy]; auto. }
    inversion Q; subst. apply sp_float; auto. assert (J : In 46 (c :: ds)) by (rewrite E; apply in_or_app; right; now left). destruct J as [J|J]; auto. unfold digit in D. lia.
  - split; [constructor|]. split; [reflexivity|]. exists (if b then op KTrue "true" else op KFalse "false"). split; [|destruct b; constructor].
    intros e r P. destruct b; unfold bool_text;
      [apply (seg_next 116 (lit "rue") (op KTrue "true") e r)|apply (seg_next 102 (lit "alse") (op KFalse "false") e r)]; auto; apply sp_keyword; vm_compute; tauto.
  - split; [now constructor|]. split; [reflexivity|]. exists (Tok KString s). split; [|constructor].
    intros e r P. change (lit """") with [34]. rewrite <- !app_assoc. cbn [app]. apply seg_quoted; auto. vm_compute; tauto.
Qed.
Definition expr_of (c : check) : expr := EBin (Tok (k_kind c) (k_sign c)) (place (k_root c) (k_turns c)) (k_literal c).
Lemma comparison_binary k o : In (k, o) comparisons -> binary k /\ In k comparison_kinds /\ In (k, o) operators.
Proof.
  intros I. cbn in I. decompose [or] I; try contradiction; match goal with H : (_, _) = (_, _) |- _ => injection H as <- <- end;
    (split; [first [exists 5%nat; solve [eexists; split; [reflexivity|vm_compute; tauto]]|exists 6%nat; solve [eexists; split; [reflexivity|vm_compute; tauto]]]|split; vm_compute; tauto]).
Qed.
Lemma check_read c : well_written c -> literal (k_literal c) /\ In (k_kind c) comparison_kinds /\ exists w,
  (forall e r, splits e -> segment (k_text c ++ e :: r) = w ++ segment (e :: r)) /\ forall k, SpecReading.reads k (expr_of c) w.
Proof.
  destruct c as [text root ps k o l]. unfold well_written, expr_of. cbn [k_text k_root k_turns k_kind k_sign k_literal]. intros W. inversion W as [? ? ts ? ? ? b N F I L]; subst. clear W.
  destruct (place_read _ _ _ N F) as (w & A & R). destruct (literal_read _ _ L) as (Li & Ed & t & A' & R'). destruct (comparison_binary _ _ I) as (B & K & O).
  split; auto. split; auto. exists (w ++ [Tok k o; t]). split.
  - intros e r P. change (lit " ") with [32]. rewrite <- !app_assoc. cbn [app]. rewrite (A 32) by (left; exact splits32). f_equal. rewrite seg_space.
    destruct (spells_nonempty o (Tok k o)) as (c & o' & ->); [now apply sp_op|]. rewrite (seg_next c o' (Tok k (c :: o')) 32) by (auto using splits32; now apply sp_op). f_equal. rewrite seg_space. now apply A'.
  - intros k'. apply (rd_bin k' (Tok k o) _ w l [t]); auto.
    + unfold place. clear -F. assert (G : forall e, ~ is_let e -> ~ is_let (fold_left access ps e)). { clear. induction ps as [|p ps IH]; cbn; auto. intros e _. apply IH. destruct p; cbn; auto. } apply G. cbn. auto.
    + intros t' x y E. exfalso. assert (G : forall e, (forall a b c, e <> EBin a b c) -> forall a b c, fold_left access ps e <> EBin a b c).
      { clear. induction ps as [|p ps IH]; cbn [fold_left]; auto. intros e _. apply IH. destruct p; discriminate. } eapply G; [|exact E]. discriminate.
    + rewrite Ed. intros t' [].
Qed.
Lemma listed_read cs : Forall well_written cs -> exists w, reads_list KRs (map expr_of cs) w /\
  forall r, segment (listed (map k_text cs) ++ 93 :: r) = w ++ segment (93 :: r).
Proof.
  intros F. destruct F as [|c cs C F]; [exists []; split; [constructor|reflexivity]|]. cbn [map listed]. revert c C. induction F as [|c2 cs C2 F IH]; intros c C.
  - destruct (check_read c C) as (_ & _ & w & A & R). exists w. split; [now constructor|]. intros r. cbn [map flat_map]. rewrite app_nil_r. apply A. apply splits_lone. vm_compute; tauto.
  - destruct (check_read c C) as (_ & _ & w & A & R). destruct (IH c2 C2) as (w' & R' & A'). exists (w ++ op KComma "," :: w'). split; [now constructor|].
    intros r. cbn [map flat_map]. change (lit ", ") with [44; 32]. rewrite <- !app_assoc. cbn [app]. rewrite (A 44) by (apply splits_lone; vm_compute; tauto). f_equal.
    rewrite (seg_lone KComma 44) by (vm_compute; tauto). rewrite seg_space. f_equal. rewrite <- (A' r). now rewrite <- !app_assoc.
Qed.

(** ** reading the suite *)
Lemma seg_lets vars rest : Forall (fun xv => new_name (fst xv) /\ ~ In 34 (snd xv)) vars ->
  segment (flat_map (fun xv => lit "let " ++ fst xv ++ lit " = """ ++ snd xv ++ lit """;" ++ [10]) vars ++ rest) = flat_map let_tokens vars ++ segment rest.
Proof.
  intros V. induction V as [|[x v] vars [X Q] V IH]; cbn [flat_map app]; auto. cbn [fst snd] in *. rewrite <- !app_assoc in *.
  change (lit "let ") with (lit "let" ++ [32]). rewrite <- !app_assoc. cbn [app].
  rewrite (seg_word KLet "let") by (vm_compute; tauto). change (lit " = """) with (32 :: lit "=" ++ [32; 34]). cbn [app]. rewrite <- !app_assoc. cbn [app].
  rewrite (seg_name x 32) by (auto using splits32). rewrite seg_space, (seg_word KAssign "=") by (vm_compute; tauto).
  change (lit """;") with [34; 59]. cbn [app]. rewrite (seg_quoted KString) by (auto; try (vm_compute; tauto); apply splits_in; vm_compute; tauto).
  rewrite (seg_lone KSemi) by (vm_compute; tauto). rewrite seg_line. cbn [app let_tokens fst snd]. do 5 f_equal. exact IH.
Qed.
Lemma check_loads w root vars r template cs t : definable vars r template -> Forall well_written cs -> new_name t ->
  read_node (fst root) (snd root) = Some (check_suite vars r template cs t) ->
  exists src s1, loads w root src s1 /\ mget t (s_tests src) = Some [ECall r []] /\ s_trace s1 = [] /\ s_ctx s1 = with_vars vars (Ctx [] (mextend [] (s_requests src)) []) /\
    mget r (c_reqs (s_ctx s1)) = Some (template, map expr_of cs).
Proof.
  intros D C T Rd. pose proof D as (V & R & Tm). destruct (listed_read cs C) as (wl & Rl & Sl).
  set (wt := op KTest "test" :: Tok KIdent t :: op KLb "{" :: [Tok KIdent r; op KLp "("; op KRp ")"] ++ [op KRb "}"]).
  set (wr := op KRequest "request" :: Tok KIdent r :: Tok KTemplate template :: op KLs "[" :: wl ++ [op KRs "]"]).
  assert (S : segment (check_suite vars r template cs t) = (flat_map let_tokens vars ++ wr ++ wt) ++ [Tok KEof []]).
  { unfold check_suite. rewrite seg_lets by exact V. rewrite <- app_assoc. f_equal. change (lit "request ") with (lit "request" ++ [32]). change (lit "`") with [96]. change (lit "`[") with [96; 91]. rewrite <- !app_assoc. cbn [app].
    rewrite (seg_word KRequest "request") by (vm_compute; tauto). rewrite (seg_name r 96) by (auto; apply splits_in; vm_compute; tauto).
    rewrite (seg_quoted KTemplate 96 template 91) by (auto; try (vm_compute; tauto); apply splits_lone; vm_compute; tauto). rewrite (seg_lone KLs 91) by (vm_compute; tauto).
    change (lit "]") with [93]. cbn [app]. rewrite Sl. rewrite (seg_lone KRs 93) by (vm_compute; tauto). rewrite seg_line.
    unfold wr, wt. cbn [app]. do 4 f_equal. rewrite <- !app_assoc. cbn [app]. f_equal. f_equal.
    change (lit "test ") with (lit "test" ++ [32]). rewrite <- !app_assoc. cbn [app].
    rewrite (seg_word KTest "test") by (vm_compute; tauto). change (lit " { ") with [32; 123; 32]. cbn [app]. rewrite (seg_name t 32) by (auto using splits32).
    rewrite seg_space, (seg_lone KLb) by (vm_compute; tauto). rewrite seg_space. change (lit "() }") with [40; 41; 32; 125].
    rewrite (seg_name r 40) by (auto; apply splits_in; vm_compute; tauto). reflexivity. }
  assert (I : reads_items (map let_item vars ++ [IRequest r template (map expr_of cs); ITest t [ECall r []]]) (flat_map let_tokens vars ++ wr ++ wt)).
  { apply reads_lets. apply rs_next; [now apply rt_request_asserts|]. rewrite <- (app_nil_r wt). apply rs_next; [|constructor]. apply rt_test.
    apply (rb_next _ [Tok KIdent r; op KLp "("; op KRp ")"] [] []); [apply (rd_call _ r [] []); constructor|apply over_call; cbn; tauto|constructor]. }
  destruct (proj2 (accepted (check_suite vars r template cs t))) as [src P]; [eauto|].
  destruct (read_as _ _ _ _ P S I) as (E & M & Ts). rewrite lets_exprs in E. rewrite lets_requests in M. rewrite lets_tests in Ts. cbn [item_exprs flat_map app] in E. rewrite app_nil_r in E.
  destruct (lets_eval w vars (Ctx [] (mextend [] (s_requests src)) []) []) as [vs L].
  exists src, (St (with_vars vars (Ctx [] (mextend [] (s_requests src)) [])) []). split.
  { exists (check_suite vars r template cs t). eexists. split; auto. split; auto. rewrite E. unfold eval_block. exact (exprs_in_order _ _ _ _ _ L VNull). }
  split. { apply Ts. exists [], []. auto. } split; auto. split; auto.
  assert (ND : NoDup (map fst (s_requests src))) by (apply ParserTop.collected in P; destruct P as (is & u & _ & _ & _ & _ & _ & N & _); exact N).
  cbn [s_ctx with_vars c_reqs]. rewrite extend_get by auto. assert (G : mget r (s_requests src) = Some (template, map expr_of cs)) by (apply M; exists [], []; auto). now rewrite G.
Qed.

(** ** a call *)
Lemma part_shown h x u t : denotes x u -> valid u -> part_text x t -> part_text x (show_value h u).
Proof.
  intros D V P. destruct P; inversion D; subst; cbn [show_value]; try constructor.
  - apply show_Z_text.
  - now apply show_f64_shown.
Qed.
Lemma literal_value_text h l : literal l -> literal_text l (show_value h (literal_value l)).
Proof. destruct 1; cbn; constructor; [apply show_Z_text|now apply show_f64_shown]. Qed.
Lemma literal_expr_text l : literal l -> literal_shown l (show_expr l).
Proof. destruct 1; cbn; try constructor; [apply show_Z_text|now apply show_f64_shown]. Qed.
Lemma place_shown root ps : exists ts, Forall2 turn_shown ps ts /\ show_expr (place root ps) = root ++ List.concat ts.
Proof.
  unfold place. assert (G : forall e, exists ts, Forall2 turn_shown ps ts /\ show_expr (fold_left access ps e) = show_expr e ++ List.concat ts).
  { induction ps as [|p ps IH]; intros e; cbn [fold_left]; [exists []; split; [constructor|cbn; now rewrite app_nil_r]|].
    destruct (IH (access e p)) as (ts & F & E). rewrite E.
    assert (X : exists t, turn_shown p t /\ show_expr (access e p) = show_expr e ++ t).
    { destruct p as [k|k|i]; cbn [access show_expr].
      - exists (lit "." ++ k). split; [constructor|reflexivity].
      - exists (lit "[""" ++ k ++ lit """]"). split; [constructor|]. f_equal. change (lit "[""") with (lit "[" ++ [34]). change (lit """]") with ([34] ++ lit "]"). now rewrite <- !app_assoc.
      - eexists. split; [constructor; apply show_Z_text|reflexivity]. }
    destruct X as (t & X & ->). exists (t :: ts). split; [now constructor|]. cbn [List.concat]. now rewrite app_assoc. }
  exact (G (EIdent root)).
Qed.
Lemma says_check r c b : literal (k_literal c) -> In (k_kind c) comparison_kinds -> decidable_for r c -> says r (expr_of c) b -> (b = true <-> holds_of r c).
Proof.
  intros L K D S. destruct (S _ _ _ _ eq_refl L D) as (S1 & S2 & S3). cbn [tkind] in *. unfold holds_of. split.
  - intros B. cbn in K. decompose [or] K; try contradiction; match goal with H : _ = k_kind c |- _ => symmetry in H; rename H into Kt end;
      try (left; split; [exact Kt|now apply S1]); try (right; left; split; [exact Kt|now apply S2]); right; right; apply S3; auto; rewrite Kt; cbn; tauto.
  - intros [[Kt X]|[[Kt X]|X]]; [now apply S1|now apply S2|]. apply S3; auto.
    destruct X as (x & o & _ & _ & M). cbn. destruct (k_kind c); cbn in M; try contradiction; tauto.
Qed.
Definition assert_line (a : assertion) : str :=
  a_expr a ++ lit " => " ++ a_left a ++ lit " " ++ a_compare a ++ lit " " ++ a_right a ++ lit " => " ++ (if a_result a then lit "true" else lit "false") ++ [10].
Lemma checks_asserted w r m s : response_text r -> to_map (e_host w) r = Ok m -> (forall n, mget n (c_vars (s_ctx s)) = mget n m) ->
  forall cs, Forall well_written cs -> Forall (decidable_for r) cs -> exists as_, asserted w (map expr_of cs) s as_ s /\
    Forall2 (fun c a => check_line r c (assert_line a) /\ (a_result a = true <-> holds_of r c)) cs as_.
Proof.
  intros T M I. induction cs as [|c cs IH]; intros W C; [exists []; split; constructor|]. inversion W as [|? ? Wc W']; inversion C as [|? ? Cc C']; subst.
  destruct (IH W' C') as (as_ & A & F). destruct (check_read c Wc) as (L & K & _). destruct (place_value w r m s T M I (k_root c) (k_turns c) Cc) as (u & O & Vu & Fu & N).
  assert (B : exists b, binop w (k_kind c) u (literal_value (k_literal c)) = Ok (VBool b)).
  { clear -K. cbn [In comparison_kinds] in K. destruct K as [<-|[<-|[<-|[<-|[<-|[<-|[]]]]]]]; unfold binop; vm_compute (lit _); cbn; eauto. }
  destruct B as [b B]. assert (O' : operand w (k_literal c) s (literal_value (k_literal c)) s) by (left; now apply literal_reads).
  pose proof (says_right w r m s T M I (Tok (k_kind c) (k_sign c)) _ _ _ _ _ _ b K O O' B) as S. pose proof (says_check r c b L K Cc S) as H.
  eexists. split; [cbn [map]; unfold expr_of at 1; apply (at_comparison w (Tok (k_kind c) (k_sign c)) _ _ _ _ _ _ _ _ b _ _ K O O' B A)|]. constructor; auto. cbn [a_result]. split; auto.
  destruct (place_shown (k_root c) (k_turns c)) as (ts & Ft & Et). unfold check_line, assert_line. cbn [a_expr a_left a_compare a_right a_result tlit].
  exists (show_expr (place (k_root c) (k_turns c)) ++ lit " " ++ k_sign c ++ lit " " ++ show_expr (k_literal c)), (show_value (e_host w) u), (show_value (e_host w) (literal_value (k_literal c))), b.
  split; [reflexivity|]. split.
  { exists ts, (show_expr (k_literal c)). split; auto. split; [now apply literal_expr_text|]. rewrite Et, <- !app_assoc. reflexivity. }
  split. { intros x X (t & P). eapply part_shown; eauto. }
  split. { intros X. destruct N as [[x N]| ->]; [now apply X in N|reflexivity]. }
  split; [now apply literal_value_text|exact H].
Qed.
Lemma call_prints_named w r s template cs msg : mget r (c_reqs (s_ctx s)) = Some (template, map expr_of cs) -> message_of w (s_ctx s) template msg -> Forall well_written cs ->
  answered w msg -> (forall rs, heard w (s_trace s) msg rs -> Forall (decidable_for rs) cs) ->
  exists v rec, eval_block w [ECall r []] s = (Ok v, St (Ctx (c_vars (s_ctx s)) (c_reqs (s_ctx s)) (c_recs (s_ctx s) ++ [rec])) (s_trace s ++ [Sent msg])) /\
    exists rs, heard w (s_trace s) msg rs /\ check_report rs r cs (show_record rec ++ [10]) /\ response_text rs /\ (exists m, to_map (e_host w) rs = Ok m /\ v = VMap m) /\ r_name rec = r /\
      r_response rec = rs /\ client_send (e_prepare w) (e_net w (s_trace s) msg) msg = Ok (r_request rec, rs, r_time rec, r_error rec) /\
      exists m s1, to_map (e_host w) rs = Ok m /\ asserted w (map expr_of cs) (St (Ctx m [] []) (s_trace s ++ [Sent msg])) (r_asserts rec) s1.
Proof.
  intros G M W A D. destruct (A (s_trace s)) as (rq & rs & t & er & m & S & TM). pose proof (send_text _ _ _ _ _ _ _ S) as T.
  assert (H : heard w (s_trace s) msg rs) by (exists rq, t, er; exact S).
  destruct (checks_asserted w rs m (St (Ctx m [] []) (s_trace s ++ [Sent msg])) T TM ltac:(reflexivity) cs W (D rs H)) as (as_ & As & F).
  do 2 eexists. split; [rewrite block_one; apply (call_reports w r [] s [] s template _ msg _ _ (io_nil w s) G M); exists rq, rs, t, er, m, as_; eexists; repeat split; try eassumption; reflexivity|].
  exists rs. split; auto. split; [|split; [exact T|split; [exists m; split; [exact TM|reflexivity]|split; [reflexivity|split; [reflexivity|split; [exact S|eexists; eexists; split; [exact TM|exact As]]]]]]]. match goal with |- check_report _ _ _ (show_record ?rec ++ _) => destruct (verdict rec) as (v & d & Dt & Sh & P & N) end. cbn [r_name r_asserts r_time] in *.
  exists (map assert_line as_), v, d. eexists. split; [rewrite Sh, flat_map_concat_map, <- !app_assoc; reflexivity|]. split.
  { clear -F. induction F as [|c a cs as_ [X _] F IH]; constructor; auto. }
  split; [exact Dt|].
  assert (Z : (forall a, In a as_ -> a_result a = true) <-> Forall (holds_of rs) cs).
  { clear -F. induction F as [|c a cs as_ [_ X] F IH]; [split; [constructor|intros _ a []]|]. split.
    - intros Y. constructor; [apply X, Y; now left|apply IH; intros y J; apply Y; now right].
    - intros Y y [<-|J]; inversion Y; subst; [now apply X|now apply IH]. }
  destruct (existsb (fun a => negb (a_result a)) as_) eqn:X.
  - right. apply existsb_exists in X. destruct X as (a & J & X). assert (Ra : a_result a = false) by now destruct (a_result a). split; [|apply N; eauto]. intros Y. rewrite (proj2 Z Y a J) in Ra. discriminate.
  - left. assert (Y : forall a, In a as_ -> a_result a = true). { intros a J. destruct (a_result a) eqn:Ra; auto. assert (Q : existsb (fun a => negb (a_result a)) as_ = true) by (apply existsb_exists; exists a; rewrite Ra; auto). congruence. }
    split; [now apply Z|now apply P].
Qed.
Lemma call_prints w r s template cs msg : mget r (c_reqs (s_ctx s)) = Some (template, map expr_of cs) -> message_of w (s_ctx s) template msg -> Forall well_written cs ->
  answered w msg -> (forall rs, heard w (s_trace s) msg rs -> Forall (decidable_for rs) cs) ->
  exists v rec, eval_block w [ECall r []] s = (Ok v, St (Ctx (c_vars (s_ctx s)) (c_reqs (s_ctx s)) (c_recs (s_ctx s) ++ [rec])) (s_trace s ++ [Sent msg])) /\
    exists rs, heard w (s_trace s) msg rs /\ check_report rs r cs (show_record rec ++ [10]) /\ response_text rs /\ exists m, to_map (e_host w) rs = Ok m /\ v = VMap m.
Proof.
  intros G M W A D. destruct (call_prints_named w r s template cs msg G M W A D) as (v & rec & E & rs & H & C & T & X & _). exists v, rec. split; [exact E|]. exists rs. auto.
Qed.

(** ** a run *)
Lemma rounds_app msg a b : rounds_events msg (a ++ b) = rounds_events msg a ++ rounds_events msg b.
Proof. apply flat_map_app. Qed.
Lemma rounds_snoc w msg name cs rounds r text : rounds_reported w msg name cs rounds -> heard w (rounds_events msg rounds) msg r -> check_report r name cs text ->
  rounds_reported w msg name cs (rounds ++ [(r, text)]).
Proof.
  intros R H C past r' text' rest E. destruct rest as [|y l _] using rev_ind.
  - apply app_inj_tail in E. destruct E as [-> E]. injection E as <- <-. auto.
  - rewrite app_comm_cons, app_assoc in E. apply app_inj_tail in E. destruct E as [E _]. now apply (R past r' text' l).
Qed.
Lemma iterated_prints w r c template cs msg : mget r (c_reqs c) = Some (template, map expr_of cs) -> message_of w c template msg -> Forall well_written cs ->
  answered w msg -> (forall tr rs, heard w tr msg rs -> Forall (decidable_for rs) cs) ->
  forall k s bs, iterated w [ECall r []] c k s bs -> c_vars (s_ctx s) = c_vars c /\ c_reqs (s_ctx s) = c_reqs c /\ c_recs (s_ctx s) = [] /\
    exists rounds, N.of_nat (length rounds) = k /\ s_trace s = rounds_events msg rounds /\ rounds_reported w msg r cs rounds.
Proof.
  intros M Q W A D. induction 1 as [|k s bs v s1 It (V & R & Rc & rounds & L & Tr & Rp) E].
  - repeat split; auto. exists []. repeat split; destruct past; discriminate.
  - destruct (call_prints w r s template cs msg) as (v' & rec & E' & rs & H & C & _); auto; [now rewrite R|eapply message_vars; [symmetry; exact V|exact Q]|intros rs; apply D|].
    rewrite E in E'. injection E' as _ ->. cbn [s_ctx c_vars c_reqs s_trace c_recs]. rewrite Rc. repeat split; auto. rewrite Tr in *.
    exists (rounds ++ [(rs, show_record rec ++ [10])]). split; [rewrite app_length; cbn [length]; lia|]. split; [|now apply rounds_snoc]. rewrite rounds_app, <- app_assoc. reflexivity.
Qed.
Theorem suite_prints iter w root threads duration number record pod d g vars r template cs t msg p :
  definable vars r template -> new_name t -> Forall well_written cs -> filled vars template msg -> read_node (fst root) (snd root) = Some (check_suite vars r template cs t) -> threads <> 0 ->
  goes g (launch iter w root (Some t) threads duration number record pod d) p -> p_main p = Gone true ->
  (forall id, answered (g_world g id) msg) -> (forall id tr rs, heard (g_world g id) tr msg rs -> Forall (decidable_for rs) cs) ->
  forall id, id < threads -> exists rounds, events_of (Tester id) (p_log p) = rounds_events msg rounds /\ rounds_reported (g_world g id) msg r cs rounds /\
    N.of_nat (length rounds) <= share duration number threads /\ (p_flag p = true -> N.of_nat (length rounds) = share duration number threads).
Proof.
  intros D T W F Rd Th G Gn An De id X. destruct (check_loads w root vars r template cs t D W T Rd) as (src & s1 & L & B & Tr & C & M).
  assert (Q : forall w', message_of w' (s_ctx s1) template msg) by (intros w'; rewrite C; now apply filled_message).
  destruct (named_end iter w root t threads duration number record pod d g src s1 _ p L B Th G Gn) as (bss & Lb & H & _).
  destruct (nth_error bss (N.to_nat id)) as [bs|] eqn:Nb. 2: { apply nth_error_None in Nb. lia. }
  destruct (H id bs Nb) as [(s & It & Le & Y) _].
  destruct (iterated_prints _ _ _ _ _ _ M (Q (g_world g id)) W (An id) (De id) _ _ _ It) as (V & R & _ & rounds & Lr & Et & Rp).
  destruct Y as [[-> Y]|(Lt & o & s2 & E & O & _)].
  - exists rounds. split; auto. split; auto. rewrite Lr. split; auto. intros Fg. rewrite Fg in Y. destruct Y as [Y|Y]; [auto|discriminate].
  - destruct (call_prints (g_world g id) r s template cs msg) as (v & rec & E' & _); auto; [now rewrite R|eapply message_vars; [symmetry; exact V|apply Q]|intros rs; apply De|].
    rewrite E in E'. injection E' as -> _. destruct O as [O|[e O]]; discriminate.
Qed.
Theorem heard_bytes w tr msg r d line version status reason hs body : heard w tr msg r ->
  x_connect (e_net w tr msg) = inl d -> x_write (e_net w tr msg) = None -> x_reply (e_net w tr msg) = Reader (opening line hs ++ utf8 body) None ->
  status_line line version status reason -> Forall field hs -> scalars body -> r = Response version status reason hs body.
Proof. intros (rq & t & er & E) A B C D F G. exact (proj1 (reply_heard _ _ _ _ _ _ _ _ _ _ _ _ _ _ E A B C D F G)). Qed.
