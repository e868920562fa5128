(** Proofs about requests that depend on what a response says. *)
From Verif Require Import TextProofs ShowProofs TemplateProofs LexOneProofs LexerProofs LayoutProofs EvaluatorProofs EvaluatorTop ReadComplete SpecReading ByLineProofs ArrivesProofs EvalExamples
  NumberProofs FloatOps AssertProofs ValidProofs VerdictProofs LiveProofs SuiteProofs PrintsProofs ChainProofs ProcessTop ProcessOnce ProcessRun ProcessProofs ProcessEnds ProcessLaunch SpecProcess SpecLayout SpecBranch.
From Coq Require Import Lia.
Open Scope N_scope.

(** ** the condition *)
Definition condition (a : str) (p : turn) (g : check) : expr := EBin (Tok (k_kind g) (k_sign g)) (fold_left access (p :: k_turns g) (ECall a [])) (k_literal g).
Lemma compared w rs m p g u : response_text rs -> to_map (e_host w) rs = Ok m -> into p (k_root g) -> literal (k_literal g) -> In (k_kind g) comparison_kinds ->
  (exists y, found rs (k_root g) (k_turns g) y) -> walk_value (e_host w) (VMap m) (p :: k_turns g) = Ok u ->
  exists b, binop w (k_kind g) u (literal_value (k_literal g)) = Ok (VBool b) /\ (b = true <-> holds_of rs g).
Proof.
  intros T M P L K (y & d & Pd & Lo) W. destruct (parts_denote _ _ _ T M) as [Q _]. destruct (Q _ _ Pd) as (v & G & D & V).
  cbn [walk_value] in W. assert (S : step_value (e_host w) (VMap m) p = Ok v) by (destruct P as [-> | ->]; cbn; now rewrite G). rewrite S in W.
  assert (B : exists b, binop w (k_kind g) u (literal_value (k_literal g)) = Ok (VBool b)).
  { clear -K. cbn [In comparison_kinds] in K. destruct K as [<-|[<-|[<-|[<-|[<-|[<-|[]]]]]]]; unfold binop; vm_compute (lit _); cbn; eauto. }
  destruct B as [b B]. exists b. split; auto. set (s := St (Ctx m [] []) []).
  assert (O : operand w (place (k_root g) (k_turns g)) s u s).
  { left. unfold place. rewrite <- W. apply eval_walk. rewrite EvaluatorTop.reads. cbn [s s_ctx c_vars]. now rewrite G. }
  assert (O' : operand w (k_literal g) s (literal_value (k_literal g)) s) by (left; now apply literal_reads).
  assert (Js : decidable_for rs g). { intros E. rewrite E in Pd. inversion Pd; subst; left; eauto. }
  apply (says_check rs g b L K Js). exact (says_right w rs m s T M ltac:(reflexivity) (Tok (k_kind g) (k_sign g)) _ _ _ _ _ _ b K O O' B).
Qed.
Lemma condition_holds w s a ta ca ma p g :
  mget a (c_reqs (s_ctx s)) = Some (ta, map expr_of ca) -> message_of w (s_ctx s) ta ma -> Forall well_written ca -> answered w ma ->
  (forall rs, heard w (s_trace s) ma rs -> Forall (decidable_for rs) ca /\ exists y, found rs (k_root g) (k_turns g) y) -> into p (k_root g) -> literal (k_literal g) -> In (k_kind g) comparison_kinds ->
  exists b rec rs, eval_expr w (condition a p g) s = (Ok (VBool b), St (Ctx (c_vars (s_ctx s)) (c_reqs (s_ctx s)) (c_recs (s_ctx s) ++ [rec])) (s_trace s ++ [Sent ma])) /\
    heard w (s_trace s) ma rs /\ check_report rs a ca (show_record rec ++ [10]) /\ (b = true <-> holds_of rs g).
Proof.
  intros G M W A D P L K. destruct (call_prints w a s ta ca ma G M W A (fun rs H => proj1 (D rs H))) as (v & rec & E & rs & H & C & T & m & Tm & ->). rewrite block_one in E.
  destruct (D rs H) as [_ F]. destruct F as [y F]. destruct (ChainProofs.taken w rs m p (k_root g) (k_turns g) T Tm P y F) as (u & Wu & _ & _).
  destruct (compared w rs m p g u T Tm P L K (ex_intro _ y F) Wu) as (b & B & Hb).
  pose proof (eval_walk w (p :: k_turns g) _ _ _ _ E) as Ew. rewrite Wu in Ew. exists b, rec, rs. split; [|auto].
  unfold condition. assert (K' : In (tkind (Tok (k_kind g) (k_sign g))) strict_kinds).
  { cbn [tkind]. clear -K. cbn [In comparison_kinds] in K. destruct K as [<-|[<-|[<-|[<-|[<-|[<-|[]]]]]]]; cbn; tauto. }
  destruct (binary_order w _ (fold_left access (p :: k_turns g) (ECall a [])) (k_literal g) s K') as [BO _]. erewrite BO; [cbn [tkind]; rewrite B; reflexivity|]. econstructor; [exact Ew|]. econstructor; [now apply literal_reads|constructor].
Qed.
(** ** one time through the test *)
Definition forked (a b c : str) (g : check) : list expr := [EIf (condition a (Field (k_root g)) g) [ECall b []] [ECall c []]].
Lemma fork_once w s a ta ca ma b tb cb mb c tc cc mc g :
  mget a (c_reqs (s_ctx s)) = Some (ta, map expr_of ca) -> mget b (c_reqs (s_ctx s)) = Some (tb, map expr_of cb) -> mget c (c_reqs (s_ctx s)) = Some (tc, map expr_of cc) ->
  message_of w (s_ctx s) ta ma -> message_of w (s_ctx s) tb mb -> message_of w (s_ctx s) tc mc ->
  Forall well_written ca -> Forall well_written cb -> Forall well_written cc -> well_written g -> c_recs (s_ctx s) = [] ->
  answered w ma -> answered w mb -> answered w mc ->
  (forall tr rs, heard w tr ma rs -> Forall (decidable_for rs) ca /\ exists y, found rs (k_root g) (k_turns g) y) ->
  (forall tr rs, heard w tr mb rs -> Forall (decidable_for rs) cb) -> (forall tr rs, heard w tr mc rs -> Forall (decidable_for rs) cc) ->
  exists v s' f, eval_block w (forked a b c g) s = (Ok v, s') /\ c_reqs (s_ctx s') = c_reqs (s_ctx s) /\ c_vars (s_ctx s') = c_vars (s_ctx s) /\
    s_trace s' = s_trace s ++ [Sent ma; Sent (if f_so f then mb else mc)] /\ map (fun r => Printed (show_record r ++ [10])) (c_recs (s_ctx s')) = [Printed (f_report f); Printed (f_report2 f)] /\
    heard w (s_trace s) ma (f_first f) /\ (f_so f = true <-> holds_of (f_first f) g) /\ heard w (s_trace s ++ [Sent ma]) (if f_so f then mb else mc) (f_second f) /\
    check_report (f_first f) a ca (f_report f) /\ if f_so f then check_report (f_second f) b cb (f_report2 f) else check_report (f_second f) c cc (f_report2 f).
Proof.
  intros Ga Gb Gc Ma Mb Mc Wa Wb Wc Wg Rc Aa Ab Ac Da Db Dc. destruct (check_read g Wg) as (L & K & _).
  destruct (condition_holds w s a ta ca ma (Field (k_root g)) g Ga Ma Wa Aa (fun rs H => Da _ rs H) ltac:(now left) L K) as (so & rec & r1 & E & H1 & C1 & So).
  set (s1 := St (Ctx (c_vars (s_ctx s)) (c_reqs (s_ctx s)) (c_recs (s_ctx s) ++ [rec])) (s_trace s ++ [Sent ma])) in *.
  destruct (proj2 (conditional w _ [ECall b []] [ECall c []] s _ s1 E) _ eq_refl) as [If It].
  assert (N : exists v rec2 r2, eval_expr w (EIf (condition a (Field (k_root g)) g) [ECall b []] [ECall c []]) s = (Ok v, St (Ctx (c_vars (s_ctx s1)) (c_reqs (s_ctx s1)) (c_recs (s_ctx s1) ++ [rec2])) (s_trace s1 ++ [Sent (if so then mb else mc)])) /\
    heard w (s_trace s1) (if so then mb else mc) r2 /\ if so then check_report r2 b cb (show_record rec2 ++ [10]) else check_report r2 c cc (show_record rec2 ++ [10])).
  { destruct so.
    - rewrite It by (intros [X|X]; discriminate). destruct (call_prints w b s1 tb cb mb Gb Mb Wb Ab (fun rs H => Db _ rs H)) as (v & rec2 & E2 & r2 & H2 & C2 & _). eauto 8.
    - rewrite If by (now left). destruct (call_prints w c s1 tc cc mc Gc Mc Wc Ac (fun rs H => Dc _ rs H)) as (v & rec2 & E2 & r2 & H2 & C2 & _). eauto 8. }
  destruct N as (v & rec2 & r2 & E2 & H2 & C2). exists v. eexists. exists (Fork r1 so r2 (show_record rec ++ [10]) (show_record rec2 ++ [10])). cbn [f_first f_so f_second f_report f_report2].
  split; [unfold forked; rewrite block_one; exact E2|]. cbn [s_ctx c_reqs c_vars c_recs s_trace s1]. split; auto. split; auto. split; [now rewrite <- app_assoc|]. split; [now rewrite Rc|]. auto.
Qed.

(** ** reading the suite *)
Lemma branch_loads w root vars a ta ca b tb cb c tc cc t g : definable vars a ta -> definable vars b tb -> definable vars c tc -> NoDup [a; b; c] ->
  Forall well_written ca -> Forall well_written cb -> Forall well_written cc -> well_written g -> new_name t ->
  read_node (fst root) (snd root) = Some (branch_suite vars a ta ca b tb cb c tc cc t g) ->
  exists src s1, loads w root src s1 /\ mget t (s_tests src) = Some (forked a b c g) /\ s_ctx s1 = with_vars vars (Ctx [] (mextend [] (s_requests src)) []) /\
    mget a (c_reqs (s_ctx s1)) = Some (ta, map expr_of ca) /\ mget b (c_reqs (s_ctx s1)) = Some (tb, map expr_of cb) /\ mget c (c_reqs (s_ctx s1)) = Some (tc, map expr_of cc).
Proof.
  intros (V & Na & Ta) (_ & Nb & Tb) (_ & Nc & Tc) ND Ca Cb Cc Wg T Rd.
  destruct (request_read a ta ca Na Ta Ca) as (wa & Ra & Sa). destruct (request_read b tb cb Nb Tb Cb) as (wb & Rb & Sb). destruct (request_read c tc cc Nc Tc Cc) as (wc & Rc & Sc).
  assert (Q : exists wp, (forall r, segment (lit "." ++ k_text g ++ 41 :: r) = wp ++ segment (41 :: r)) /\ forall k, SpecReading.reads k (condition a (Field (k_root g)) g) ([Tok KIdent a; op KLp "("; op KRp ")"] ++ wp)).
  { destruct g as [text rt ps k o l]. unfold well_written, condition in *. cbn [k_text k_root k_turns k_kind k_sign k_literal] in *. inversion Wg as [? ? ts ? ? ? bl N F Ik L]; subst.
    assert (F' : Forall2 turn_written (Field rt :: ps) ((lit "." ++ rt) :: ts)) by (constructor; auto; now constructor).
    destruct (turns_read _ _ F') as (wt & A & _ & Cp). destruct (Cp (ECall a []) [Tok KIdent a; op KLp "("; op KRp ")"] I ltac:(intros k'; apply (rd_call k' a [] []); constructor)) as [_ Rp].
    destruct (literal_read _ _ L) as (Li & Ed & tl & A' & R'). destruct (comparison_binary _ _ Ik) as (B & K & O). exists (wt ++ [Tok k o; tl]). split.
    - intros r. pose proof (A 32) as A1. cbn [List.concat] in A1. change (lit " ") with [32]. rewrite <- !app_assoc. cbn [app].
      specialize (A1 (o ++ 32 :: bl ++ 41 :: r) ltac:(left; exact splits32)). rewrite <- !app_assoc in A1. cbn [app] in A1. refine (eq_trans A1 _). f_equal. rewrite seg_space.
      destruct (spells_nonempty o (Tok k o)) as (z & o' & ->); [now apply sp_op|]. rewrite (seg_next z o' (Tok k (z :: o')) 32) by (auto using splits32; now apply sp_op). f_equal. rewrite seg_space. apply A'. apply splits_lone. vm_compute; tauto.
    - intros k'. rewrite app_assoc. apply (rd_bin k' (Tok k o) _ _ l [tl]); auto.
      + clear. assert (G : forall e, ~ is_let e -> ~ is_let (fold_left access (Field rt :: ps) e)). { generalize (Field rt :: ps). clear. intros ps. induction ps as [|p ps IH]; cbn; auto. intros e _. apply IH. destruct p; cbn; auto. } apply G. cbn. auto.
      + intros t' x y E. exfalso. assert (G : forall e, (forall a b c, e <> EBin a b c) -> forall a b c, fold_left access (Field rt :: ps) e <> EBin a b c).
        { generalize (Field rt :: ps). clear. intros ps. induction ps as [|p ps IH]; cbn [fold_left]; auto. intros e _. apply IH. destruct p; discriminate. } eapply G; [|exact E]. discriminate.
      + rewrite Ed. intros t' []. }
  destruct Q as (wp & Sp & Rp).
  set (wi := op KIf "if" :: op KLp "(" :: ([Tok KIdent a; op KLp "("; op KRp ")"] ++ wp) ++ op KRp ")" :: op KLb "{" :: [Tok KIdent b; op KLp "("; op KRp ")"] ++ op KRb "}" :: op KElse "else" :: op KLb "{" :: [Tok KIdent c; op KLp "("; op KRp ")"] ++ [op KRb "}"]).
  set (wt := op KTest "test" :: Tok KIdent t :: op KLb "{" :: wi ++ [op KRb "}"]).
  assert (S : segment (branch_suite vars a ta ca b tb cb c tc cc t g) = (flat_map let_tokens vars ++ request_tokens a ta wa ++ request_tokens b tb wb ++ request_tokens c tc wc ++ wt) ++ [Tok KEof []]).
  { unfold branch_suite. rewrite seg_lets by exact V. rewrite <- app_assoc. f_equal. rewrite Sa, <- app_assoc. f_equal. rewrite Sb, <- app_assoc. f_equal. rewrite Sc, <- app_assoc. f_equal.
    change (lit "test ") with (lit "test" ++ [32]). rewrite <- !app_assoc. cbn [app].
    rewrite (seg_word KTest "test") by (vm_compute; tauto). change (lit " { if (") with (32 :: 123 :: 32 :: lit "if" ++ [32; 40]). cbn [app]. rewrite <- !app_assoc. cbn [app]. rewrite (seg_name t 32) by (auto using splits32).
    rewrite seg_space, (seg_lone KLb) by (vm_compute; tauto). rewrite seg_space, (seg_word KIf "if") by (vm_compute; tauto). rewrite (seg_lone KLp 40) by (vm_compute; tauto).
    change (lit "().") with (40 :: 41 :: lit "."). cbn [app]. rewrite (seg_name a 40) by (auto; apply splits_in; vm_compute; tauto). rewrite (seg_lone KLp 40) by (vm_compute; tauto). rewrite (seg_lone KRp 41) by (vm_compute; tauto).
    change (lit ") { ") with [41; 32; 123; 32]. cbn [app]. rewrite Sp. rewrite (seg_lone KRp 41) by (vm_compute; tauto). rewrite seg_space, (seg_lone KLb) by (vm_compute; tauto). rewrite seg_space.
    change (lit "() } else { ") with (40 :: 41 :: 32 :: 125 :: 32 :: lit "else" ++ [32; 123; 32]). cbn [app]. rewrite <- !app_assoc. cbn [app]. rewrite (seg_name b 40) by (auto; apply splits_in; vm_compute; tauto).
    rewrite (seg_lone KLp 40) by (vm_compute; tauto). rewrite (seg_lone KRp 41) by (vm_compute; tauto). rewrite seg_space, (seg_lone KRb 125) by (vm_compute; tauto). rewrite seg_space, (seg_word KElse "else") by (vm_compute; tauto).
    rewrite (seg_lone KLb) by (vm_compute; tauto). rewrite seg_space. change (lit "() } }") with [40; 41; 32; 125; 32; 125].
    rewrite (seg_name c 40) by (auto; apply splits_in; vm_compute; tauto). unfold wt, wi. cbn [app]. do 8 f_equal. rewrite <- !app_assoc. reflexivity. }
  assert (Oi : SpecReading.over KRb (EIf (condition a (Field (k_root g)) g) [ECall b []] [ECall c []])).
  { pose proof (over_call KRb a ltac:(cbn; tauto)) as X. unfold SpecReading.over in *. intros Y. destruct (X Y). }
  assert (J : reads_items (map let_item vars ++ [IRequest a ta (map expr_of ca); IRequest b tb (map expr_of cb); IRequest c tc (map expr_of cc); ITest t (forked a b c g)]) (flat_map let_tokens vars ++ request_tokens a ta wa ++ request_tokens b tb wb ++ request_tokens c tc wc ++ wt)).
  { apply reads_lets. apply rs_next; [now apply rt_request_asserts|]. apply rs_next; [now apply rt_request_asserts|]. apply rs_next; [now apply rt_request_asserts|]. rewrite <- (app_nil_r wt). apply rs_next; [|constructor]. apply rt_test.
    rewrite <- (app_nil_r wi). apply rb_next; [|exact Oi|constructor]. apply rd_if_else; [apply Rp| |].
    - apply (rb_next _ [Tok KIdent b; op KLp "("; op KRp ")"] [] []); [apply (rd_call _ b [] []); constructor|apply over_call; cbn; tauto|constructor].
    - apply (rb_next _ [Tok KIdent c; op KLp "("; op KRp ")"] [] []); [apply (rd_call _ c [] []); constructor|apply over_call; cbn; tauto|constructor]. }
  set (text := branch_suite vars a ta ca b tb cb c tc cc t g) in *.
  destruct (proj2 (accepted text)) as [src P]; [eauto|].
  destruct (read_as _ _ _ _ P S J) as (E & M & Tt). rewrite lets_exprs in E. rewrite lets_requests in M. rewrite lets_tests in Tt. cbn [item_exprs flat_map app] in E. rewrite app_nil_r in E.
  destruct (lets_eval w vars (Ctx [] (mextend [] (s_requests src)) []) []) as [vs L].
  exists src, (St (with_vars vars (Ctx [] (mextend [] (s_requests src)) [])) []). split.
  { exists text. eexists. split; auto. split; auto. rewrite E. unfold eval_block. exact (exprs_in_order _ _ _ _ _ L VNull). }
  split. { apply Tt. exists [], []. auto. } split; auto.
  assert (NDs : NoDup (map fst (s_requests src))) by (apply ParserTop.collected in P; destruct P as (is & u & _ & _ & _ & _ & _ & N & _); exact N).
  cbn [s_ctx with_vars c_reqs]. rewrite !extend_get by auto. inversion ND as [|? ? N1 ND1]; subst. inversion ND1 as [|? ? N2 ND2]; subst.
  assert (G1 : mget a (s_requests src) = Some (ta, map expr_of ca)) by (apply M; exists [], [(b, (tb, map expr_of cb)); (c, (tc, map expr_of cc))]; split; [reflexivity|exact N1]).
  assert (G2 : mget b (s_requests src) = Some (tb, map expr_of cb)) by (apply M; exists [(a, (ta, map expr_of ca))], [(c, (tc, map expr_of cc))]; split; [reflexivity|exact N2]).
  assert (G3 : mget c (s_requests src) = Some (tc, map expr_of cc)) by (apply M; exists [(a, (ta, map expr_of ca)); (b, (tb, map expr_of cb))], []; auto). now rewrite G1, G2, G3.
Qed.

(** ** a run *)
Lemma forks_app ma mb mc a b : forks_events ma mb mc (a ++ b) = forks_events ma mb mc a ++ forks_events ma mb mc b.
Proof. apply flat_map_app. Qed.
Lemma same_vars w c c' vars : texts_in w c vars -> c_vars c' = c_vars c -> texts_in w c' vars.
Proof. intros U E n u X. unfold shown. rewrite E. exact (U n u X). Qed.
Lemma branch_iterated w c0 a ta ca ma b tb cb mb c tc cc mc g vars :
  mget a (c_reqs c0) = Some (ta, map expr_of ca) -> mget b (c_reqs c0) = Some (tb, map expr_of cb) -> mget c (c_reqs c0) = Some (tc, map expr_of cc) ->
  texts_in w c0 vars -> filled vars ta ma -> filled vars tb mb -> filled vars tc mc ->
  Forall well_written ca -> Forall well_written cb -> Forall well_written cc -> well_written g ->
  answered w ma -> answered w mb -> answered w mc ->
  (forall tr rs, heard w tr ma rs -> Forall (decidable_for rs) ca /\ exists y, found rs (k_root g) (k_turns g) y) ->
  (forall tr rs, heard w tr mb rs -> Forall (decidable_for rs) cb) -> (forall tr rs, heard w tr mc rs -> Forall (decidable_for rs) cc) ->
  forall k s bs, iterated w (forked a b c g) c0 k s bs -> c_reqs (s_ctx s) = c_reqs c0 /\ c_recs (s_ctx s) = [] /\ c_vars (s_ctx s) = c_vars c0 /\
    exists fs, N.of_nat (length fs) = k /\ s_trace s = forks_events ma mb mc fs /\ forks_rightly w ma a ca mb b cb mc c cc g fs.
Proof.
  intros Ga Gb Gc U Fa Fb Fc Wa Wb Wc Wg Aa Ab Ac Da Db Dc. induction 1 as [|k s bs v s1 It (R & Rc & Vs & fs & L & Tr & Lk) E].
  - repeat split; auto. exists []. repeat split; destruct past; discriminate.
  - pose proof (same_vars _ _ _ _ U Vs) as U'. rewrite <- R in Ga, Gb, Gc.
    destruct (fork_once w s a ta ca ma b tb cb mb c tc cc mc g Ga Gb Gc (texts_message _ _ _ _ _ U' Fa) (texts_message _ _ _ _ _ U' Fb) (texts_message _ _ _ _ _ U' Fc) Wa Wb Wc Wg Rc Aa Ab Ac Da Db Dc) as (v' & s' & f & E' & R' & V' & T' & Pr & Q).
    rewrite E in E'. injection E' as _ ->. cbn [s_ctx c_reqs c_recs s_trace c_vars]. split; [congruence|]. split; auto. split; [congruence|].
    exists (fs ++ [f]). split; [rewrite app_length; cbn [length]; lia|]. split; [rewrite Pr, T', Tr, forks_app, <- app_assoc; reflexivity|].
    intros past f' rest E'. destruct rest as [|z rest _] using rev_ind.
    + apply app_inj_tail in E'. destruct E' as [-> ->]. rewrite <- Tr. exact Q.
    + rewrite app_comm_cons, app_assoc in E'. apply app_inj_tail in E'. destruct E' as [E' _]. now apply (Lk past f' rest).
Qed.
Theorem branch_run iter w root threads duration number record pod d g vars a ta ca ma b tb cb mb c tc cc mc t guard q :
  definable vars a ta -> definable vars b tb -> definable vars c tc -> NoDup [a; b; c] -> Forall well_written ca -> Forall well_written cb -> Forall well_written cc -> well_written guard -> new_name t ->
  filled vars ta ma -> filled vars tb mb -> filled vars tc mc ->
  read_node (fst root) (snd root) = Some (branch_suite vars a ta ca b tb cb c tc cc t guard) -> threads <> 0 ->
  goes g (launch iter w root (Some t) threads duration number record pod d) q -> p_main q = Gone true ->
  (forall id, answered (g_world g id) ma /\ answered (g_world g id) mb /\ answered (g_world g id) mc) ->
  (forall id tr rs, heard (g_world g id) tr ma rs -> Forall (decidable_for rs) ca /\ exists y, found rs (k_root guard) (k_turns guard) y) ->
  (forall id tr rs, heard (g_world g id) tr mb rs -> Forall (decidable_for rs) cb) -> (forall id tr rs, heard (g_world g id) tr mc rs -> Forall (decidable_for rs) cc) ->
  forall id, id < threads -> exists fs, events_of (Tester id) (p_log q) = forks_events ma mb mc fs /\ forks_rightly (g_world g id) ma a ca mb b cb mc c cc guard fs /\
    N.of_nat (length fs) <= share duration number threads /\ (p_flag q = true -> N.of_nat (length fs) = share duration number threads).
Proof.
  intros D1 D2 D3 ND Wa Wb Wc Wg T Fa Fb Fc Rd Th G Gn An Da Db Dc id I. destruct (An id) as (Aa & Ab & Ac).
  destruct (branch_loads w root vars a ta ca b tb cb c tc cc t guard D1 D2 D3 ND Wa Wb Wc Wg T Rd) as (src & s1 & L & B & C & Ma & Mb & Mc).
  assert (U : forall w', texts_in w' (s_ctx s1) vars). { intros w' n u Tx. rewrite C. now apply shown_text. }
  destruct (named_end iter w root t threads duration number record pod d g src s1 _ q L B Th G Gn) as (bss & Lb & H & _).
  destruct (nth_error bss (N.to_nat id)) as [bs|] eqn:Nb. 2: { apply nth_error_None in Nb. lia. }
  destruct (H id bs Nb) as [(s & It & Le & Y) _].
  destruct (branch_iterated _ _ _ _ _ _ _ _ _ _ _ _ _ _ _ _ Ma Mb Mc (U (g_world g id)) Fa Fb Fc Wa Wb Wc Wg Aa Ab Ac (Da id) (Db id) (Dc id) _ _ _ It) as (R & Rc & Vs & fs & Lr & Et & Rp).
  destruct Y as [[-> Y]|(Lt & o & s2 & E & O & _)].
  - exists fs. split; auto. split; auto. rewrite Lr. split; auto. intros Fg. rewrite Fg in Y. destruct Y as [Y|Y]; [auto|discriminate].
  - pose proof (same_vars _ _ _ _ (U (g_world g id)) Vs) as U'. rewrite <- R in Ma, Mb, Mc.
    destruct (fork_once (g_world g id) s a ta ca ma b tb cb mb c tc cc mc guard Ma Mb Mc (texts_message _ _ _ _ _ U' Fa) (texts_message _ _ _ _ _ U' Fb) (texts_message _ _ _ _ _ U' Fc) Wa Wb Wc Wg Rc Aa Ab Ac (Da id) (Db id) (Dc id)) as (v' & s' & f & E' & _).
    rewrite E in E'. injection E' as -> _. destruct O as [O|[e O]]; discriminate.
Qed.
