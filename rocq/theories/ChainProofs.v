(** Proofs about what is taken from a response and sent in the next request. *)
From Verif Require Import TextProofs ShowProofs TemplateProofs LexOneProofs LexerProofs LayoutProofs EvaluatorProofs EvaluatorTop ReadComplete SpecReading ByLineProofs ArrivesProofs EvalExamples
  NumberProofs FloatOps AssertProofs ValidProofs VerdictProofs LiveProofs SuiteProofs PrintsProofs ProcessTop ProcessOnce ProcessRun ProcessProofs ProcessEnds ProcessLaunch SpecProcess SpecLayout SpecChain.
From Coq Require Import Lia.
Open Scope N_scope.

(** ** walking into a value *)
Definition step_value (h : host) (v : value) (p : turn) : res :=
  match p with Field k => field_value v k | Key k => index_value h v (VStr k) | SpecAssert.Nth i => index_value h v (VInt (Z.of_N i)) end.
Fixpoint walk_value (h : host) (v : value) (ps : list turn) : res :=
  match ps with [] => Ok v | p :: ps => match step_value h v p with Ok u => walk_value h u ps | r => r end end.
Lemma eval_walk w ps : forall e s v s', eval_expr w e s = (Ok v, s') -> eval_expr w (fold_left access ps e) s = (walk_value (e_host w) v ps, s').
Proof.
  assert (Bad : forall ps e s (o : res) s', (forall v, o <> Ok v) -> eval_expr w e s = (o, s') -> eval_expr w (fold_left access ps e) s = (o, s')).
  { clear ps. induction ps as [|p ps IH]; intros e s o s' N E; cbn [fold_left]; auto. apply IH; auto. rewrite eval_access, E. destruct o; auto. destruct (N a). reflexivity. }
  induction ps as [|p ps IH]; intros e s v s' E; cbn [fold_left walk_value]; auto.
  assert (A : eval_expr w (access e p) s = (step_value (e_host w) v p, s')) by (rewrite eval_access, E; destruct p; reflexivity).
  destruct (step_value (e_host w) v p) as [u|er| |] eqn:S; [now apply IH|apply Bad; auto; discriminate..].
Qed.
Lemma located_value h ps : forall d x, located d ps x -> forall v, denotes d v -> valid v -> exists u, walk_value h v ps = Ok u /\ denotes x u /\ valid u.
Proof.
  assert (M : forall ms k y v, last_def k ms y -> denotes (JObj ms) v -> valid v -> exists m u, v = VMap m /\ mget k m = Some u /\ denotes y u /\ valid u).
  { intros ms k y v L D V. assert (X : exists m, v = VMap m) by (inversion D; eauto). destruct X as [m ->].
    destruct (member_denotes ms m k D) as [(y' & u & L' & G & Y)|[N _]]; [|destruct (N _ L)]. assert (y = y') by (eapply last_unique; eauto). subst. exists m, u. repeat split; auto. eapply mget_valid; eauto. }
  induction 1 as [x|ms k y ps x L Lo IH|ms k y ps x L Lo IH|ys i y ps x Y Lo IH|ms i k y ps x T L Lo IH]; intros v D V; cbn [walk_value].
  - eauto.
  - destruct (M _ _ _ _ L D V) as (m & u & -> & G & Dy & Vy). cbn [step_value field_value]. rewrite G. auto.
  - destruct (M _ _ _ _ L D V) as (m & u & -> & G & Dy & Vy). cbn [step_value index_value show_value]. rewrite G. auto.
  - inversion D as [| | | | | |? vs F|]; subst.
    assert (G : exists u, nth_error vs (N.to_nat i) = Some u /\ denotes y u).
    { clear - F Y. revert Y. generalize (N.to_nat i). induction F as [|a b ys vs X _ IH]; intros [|n] Y; try discriminate; cbn in *; [injection Y as ->; eauto|auto]. }
    destruct G as (u & G & Dy). assert (Vu : valid u) by (apply valid_arr in V; rewrite Forall_forall in V; apply V; eapply nth_error_In; eauto).
    cbn [step_value index_value]. assert (LT : (N.to_nat i < length vs)%nat) by (apply nth_error_Some; congruence).
    replace ((0 <=? Z.of_N i)%Z && (Z.of_N i <? Z.of_nat (length vs))%Z) with true by (symmetry; apply andb_true_iff; split; [apply Z.leb_le|apply Z.ltb_lt]; lia).
    replace (nth (Z.to_nat (Z.of_N i)) vs VNull) with u; auto. replace (Z.to_nat (Z.of_N i)) with (N.to_nat i) by lia. symmetry. now apply nth_error_nth.
  - destruct (M _ _ _ _ L D V) as (m & u & -> & G & Dy & Vy). apply integer_text_one in T; [|lia]. subst k. cbn [step_value index_value show_value]. rewrite G. auto.
Qed.
Lemma missing_value h ps v d : denotes d v -> valid v -> (forall x, ~ located d ps x) -> walk_value h v ps = Ok VNull \/ exists e, walk_value h v ps = Err e.
Proof.
  intros D V N. set (w := Env h (fun _ => true) (fun _ _ => e_net online [] [])). set (s := St (Ctx [(lit "v", v)] [] []) []).
  assert (E : eval_expr w (EIdent (lit "v")) s = (Ok v, s)) by reflexivity.
  destruct (walk w s ps (EIdent (lit "v")) d v (or_introl E) D V) as (u & O & _ & C).
  destruct C as [(x & L & _)|[_ ->]]; [destruct (N _ L)|]. unfold operand in O. rewrite (eval_walk w ps _ _ _ _ E) in O. change (e_host w) with h in O.
  destruct O as [O|[_ [e O]]]; injection O as ->; eauto.
Qed.

(** ** one time through the test *)
Definition texts_in (w : env) (c : ctx) (vs : list (str * str)) : Prop := forall n t, text_of vs n t -> shown w c n = t.
Lemma texts_message w c vs template msg : texts_in w c vs -> filled vs template msg -> message_of w c template msg.
Proof.
  intros U (ps & ts & S & F & ->). exists ps. split; auto. f_equal. clear S. induction F as [|x y l l' X F IH]; cbn [map]; auto. rewrite (U x y X). now apply f_equal.
Qed.
Lemma filled_exists vs template : exists msg, filled vs template msg.
Proof. eexists. apply filled_by. Qed.
Lemma texts_set w c c' vs x v y tx : texts_in w c (vs ++ y) -> Forall (fun e => fst e = x) y -> mget x (c_vars c') = Some v -> (forall n, n <> x -> mget n (c_vars c') = mget n (c_vars c)) ->
  show_value (e_host w) v = tx -> texts_in w c' (vs ++ [(x, tx)]).
Proof.
  intros U Y G O S n t T. unfold shown. destruct (list_eq_dec N.eq_dec n x) as [->|N].
  - rewrite G, S. destruct T as [(a & b & E & Nb)|[Nx _]]; [|exfalso; apply Nx; rewrite map_app; apply in_or_app; right; now left].
    destruct b as [|z b _] using rev_ind; [apply app_inj_tail in E; destruct E as [_ E]; now injection E|]. exfalso. rewrite app_comm_cons, app_assoc in E. apply app_inj_tail in E. destruct E as [_ <-].
    apply Nb. rewrite map_app. apply in_or_app. right. now left.
  - rewrite O by auto. change (match mget n (c_vars c) with Some v => show_value (e_host w) v | None => lit "null" end) with (shown w c n). apply U.
    destruct T as [(a & b & E & Nb)|[Nx ->]].
    + left. destruct b as [|z b _] using rev_ind; [apply app_inj_tail in E; destruct E as [_ E]; injection E as <- _; congruence|]. rewrite app_comm_cons, app_assoc in E. apply app_inj_tail in E. destruct E as [-> <-].
      exists a, (b ++ y). rewrite <- app_assoc. split; [reflexivity|]. rewrite map_app in *. rewrite in_app_iff in *. intros [J|J]; [now apply Nb; left|]. apply in_map_iff in J. destruct J as (e & <- & J). rewrite Forall_forall in Y. apply N, Y, J.
    + right. split; auto. rewrite map_app in *. rewrite in_app_iff in *. intros [J|J]; [now apply Nx; left|]. apply in_map_iff in J. destruct J as (e & <- & J). rewrite Forall_forall in Y. apply N, Y, J.
Qed.
Lemma taken w rs m p root ps : response_text rs -> to_map (e_host w) rs = Ok m -> into p root ->
  forall y, found rs root ps y -> exists u, walk_value (e_host w) (VMap m) (p :: ps) = Ok u /\ denotes y u /\ valid u.
Proof.
  intros T M P y (d & Pd & L). destruct (parts_denote _ _ _ T M) as [Q _]. destruct (Q _ _ Pd) as (v & G & D & V).
  cbn [walk_value]. assert (S : step_value (e_host w) (VMap m) p = Ok v) by (destruct P as [-> | ->]; cbn; now rewrite G). rewrite S. eapply located_value; eauto.
Qed.
Lemma chain_once w s a ta ca b tb cb x p root ps ma vars y0 :
  mget a (c_reqs (s_ctx s)) = Some (ta, map expr_of ca) -> mget b (c_reqs (s_ctx s)) = Some (tb, map expr_of cb) -> Forall well_written ca -> Forall well_written cb -> into p root ->
  texts_in w (s_ctx s) (vars ++ y0) -> Forall (fun e => fst e = x) y0 -> filled (vars ++ y0) ta ma -> c_recs (s_ctx s) = [] ->
  answered w ma -> (forall v mb, filled (vars ++ [(x, v)]) tb mb -> answered w mb) ->
  (forall tr rs, heard w tr ma rs -> Forall (decidable_for rs) ca /\ exists y t, found rs root ps y /\ part_text y t) ->
  (forall v mb tr rs, filled (vars ++ [(x, v)]) tb mb -> heard w tr mb rs -> Forall (decidable_for rs) cb) ->
  exists v s' l, eval_block w [ELet x (fold_left access (p :: ps) (ECall a [])); ECall b []] s = (Ok v, s') /\
    c_reqs (s_ctx s') = c_reqs (s_ctx s) /\ texts_in w (s_ctx s') (vars ++ [(x, l_found l)]) /\
    s_trace s' = s_trace s ++ [Sent ma; Sent (l_message l)] /\ map (fun r => Printed (show_record r ++ [10])) (c_recs (s_ctx s')) = [Printed (l_report l); Printed (l_report2 l)] /\
    heard w (s_trace s) ma (l_first l) /\ (exists y, found (l_first l) root ps y /\ part_text y (l_found l)) /\ filled (vars ++ [(x, l_found l)]) tb (l_message l) /\
    heard w (s_trace s ++ [Sent ma]) (l_message l) (l_second l) /\
    check_report (l_first l) a ca (l_report l) /\ check_report (l_second l) b cb (l_report2 l).
Proof.
  intros Ga Gb Wa Wb P U Y F Rc Aa Ab Da Db.
  destruct (call_prints w a s ta ca ma Ga (texts_message _ _ _ _ _ U F) Wa Aa (fun rs H => proj1 (Da _ rs H))) as (va & reca & Ea & r1 & H1 & C1 & T1 & m & M1 & ->).
  rewrite block_one in Ea. destruct (Da _ _ H1) as [_ (y & t & Fy & Py)]. destruct (taken w r1 m p root ps T1 M1 P y Fy) as (u & Wu & Dy & Vu).
  pose proof (eval_walk w (p :: ps) _ _ _ _ Ea) as Ew. rewrite Wu in Ew.
  destruct (proj1 (let_binds w x _ _ _ _ Ew) u eq_refl) as (s2 & El & Eg & Eo & Er & Ec & Et). cbn [s_ctx c_vars c_reqs c_recs s_trace] in *.
  assert (G2 : mget x (c_vars (s_ctx s2)) = Some u). { rewrite EvaluatorTop.reads in Eg. destruct (mget x (c_vars (s_ctx s2))); [now injection Eg as ->|discriminate]. }
  pose proof (texts_set w (s_ctx s) (s_ctx s2) vars x u y0 _ U Y G2 Eo eq_refl) as U2. set (tx := show_value (e_host w) u) in *.
  destruct (filled_exists (vars ++ [(x, tx)]) tb) as (mb & Fb).
  destruct (call_prints w b s2 tb cb mb) as (vb & recb & Eb & r2 & H2 & C2 & _); auto.
  { now rewrite Er. } { eapply texts_message; eauto. } { eauto. } { intros rs. rewrite Et. eauto. }
  exists vb. eexists. exists (Link r1 tx mb r2 (show_record reca ++ [10]) (show_record recb ++ [10])). cbn [l_first l_found l_message l_second l_report l_report2].
  split. { change [ELet x (fold_left access (p :: ps) (ECall a [])); ECall b []] with ([ELet x (fold_left access (p :: ps) (ECall a []))] ++ [ECall b []]). rewrite block_app by discriminate. rewrite block_one, El. exact Eb. }
  cbn [s_ctx c_reqs c_recs s_trace c_vars]. split; [exact Er|]. split; [exact U2|]. split; [rewrite Et, <- app_assoc; reflexivity|]. split; [rewrite Ec, Rc; reflexivity|].
  split; [exact H1|]. split; [exists y; split; [exact Fy|eapply part_shown; eauto]|]. split; [exact Fb|]. split; [rewrite <- Et; exact H2|]. auto.
Qed.
Theorem chain_missing w s a ta ca x p root ps ma rest : mget a (c_reqs (s_ctx s)) = Some (ta, map expr_of ca) -> Forall well_written ca -> into p root ->
  message_of w (s_ctx s) ta ma -> answered w ma -> (forall rs, heard w (s_trace s) ma rs -> Forall (decidable_for rs) ca /\ (exists d, SpecAssert.part_of rs root d) /\ forall y, ~ found rs root ps y) ->
  (exists e s', eval_block w (ELet x (fold_left access (p :: ps) (ECall a [])) :: rest) s = (Err e, s') /\ s_trace s' = s_trace s ++ [Sent ma]) \/
  exists s', eval_expr w (ELet x (fold_left access (p :: ps) (ECall a []))) s = (Ok VNull, s') /\ shown w (s_ctx s') x = lit "null".
Proof.
  intros Ga Wa P M Aa Da.
  destruct (call_prints w a s ta ca ma Ga M Wa Aa (fun rs H => proj1 (Da rs H))) as (va & reca & Ea & r1 & H1 & C1 & T1 & m & M1 & ->).
  rewrite block_one in Ea. destruct (Da _ H1) as (_ & (d & Pd) & N). destruct (parts_denote _ _ _ T1 M1) as [Q _]. destruct (Q _ _ Pd) as (v & G & D & V).
  pose proof (eval_walk w (p :: ps) _ _ _ _ Ea) as Ew. cbn [walk_value] in Ew. assert (S : step_value (e_host w) (VMap m) p = Ok v) by (destruct P as [-> | ->]; cbn; now rewrite G). rewrite S in Ew.
  destruct (missing_value (e_host w) ps v d D V) as [X|[e X]]; [intros y L; apply (N y); exists d; auto|right|left]; rewrite X in Ew.
  - destruct (proj1 (let_binds w x _ _ _ _ Ew) VNull eq_refl) as (s2 & El & Eg & _). exists s2. split; auto. unfold shown. rewrite EvaluatorTop.reads in Eg. destruct (mget x (c_vars (s_ctx s2))); [now injection Eg as ->|discriminate].
  - pose proof (proj2 (let_binds w x _ _ _ _ Ew) ltac:(unfold is_ok; intros Y; first [exact Y|destruct Y; discriminate])) as El. match type of El with _ = (_, ?s') => exists e, s' end. split; [|reflexivity]. unfold eval_block, eval_expr, eval_at in *. cbn [eval_exprs]. unfold bind. rewrite El. reflexivity.
Qed.

(** ** reading the suite *)
Definition request_tokens (r template : str) (w : list token) : list token := op KRequest "request" :: Tok KIdent r :: Tok KTemplate template :: op KLs "[" :: w ++ [op KRs "]"].
Lemma request_read r template cs : new_name r -> ~ In 96 template -> Forall well_written cs -> exists w, reads_list KRs (map expr_of cs) w /\
  forall rest, segment (request_text r template cs ++ rest) = request_tokens r template w ++ segment rest.
Proof.
  intros R Tm C. destruct (listed_read cs C) as (wl & Rl & Sl). exists wl. split; auto. intros rest. unfold request_text, request_tokens.
  change (lit "request ") with (lit "request" ++ [32]). change (lit "`") with [96]. change (lit "`[") with [96; 91]. rewrite <- !app_assoc. cbn [app].
  rewrite (seg_word KRequest "request") by (vm_compute; tauto). rewrite (seg_name r 96) by (auto; apply splits_in; vm_compute; tauto).
  rewrite (seg_quoted KTemplate 96 template 91) by (auto; try (vm_compute; tauto); apply splits_lone; vm_compute; tauto). rewrite (seg_lone KLs 91) by (vm_compute; tauto).
  change (lit "]") with [93]. cbn [app]. rewrite Sl. rewrite (seg_lone KRs 93) by (vm_compute; tauto). rewrite seg_line. rewrite <- !app_assoc. reflexivity.
Qed.
Lemma chain_loads w root vars a ta ca b tb cb t x ps ts : definable vars a ta -> definable vars b tb -> a <> b -> Forall well_written ca -> Forall well_written cb -> new_name t -> new_name x -> Forall2 turn_written ps ts ->
  read_node (fst root) (snd root) = Some (chain_suite vars a ta ca b tb cb t x (List.concat ts)) ->
  exists src s1, loads w root src s1 /\ mget t (s_tests src) = Some [ELet x (fold_left access ps (ECall a [])); ECall b []] /\ s_ctx s1 = with_vars vars (Ctx [] (mextend [] (s_requests src)) []) /\
    mget a (c_reqs (s_ctx s1)) = Some (ta, map expr_of ca) /\ mget b (c_reqs (s_ctx s1)) = Some (tb, map expr_of cb).
Proof.
  intros (V & Na & Ta) (_ & Nb & Tb) AB Ca Cb T X F Rd. destruct (request_read a ta ca Na Ta Ca) as (wa & Ra & Sa). destruct (request_read b tb cb Nb Tb Cb) as (wb & Rb & Sb).
  destruct (turns_read _ _ F) as (wp & Ap & Bp & Cp). destruct (Cp (ECall a []) [Tok KIdent a; op KLp "("; op KRp ")"] I ltac:(intros k; apply (rd_call k a [] []); constructor)) as [_ Rp].
  set (we := op KLet "let" :: Tok KIdent x :: op KAssign "=" :: ([Tok KIdent a; op KLp "("; op KRp ")"] ++ wp) ++ [op KSemi ";"]).
  set (wt := op KTest "test" :: Tok KIdent t :: op KLb "{" :: (we ++ [Tok KIdent b; op KLp "("; op KRp ")"]) ++ [op KRb "}"]).
  assert (S : segment (chain_suite vars a ta ca b tb cb t x (List.concat ts)) = (flat_map let_tokens vars ++ request_tokens a ta wa ++ request_tokens b tb wb ++ wt) ++ [Tok KEof []]).
  { unfold chain_suite. rewrite seg_lets by exact V. rewrite <- app_assoc. f_equal. rewrite Sa, <- app_assoc. f_equal. rewrite Sb, <- app_assoc. f_equal.
    change (lit "test ") with (lit "test" ++ [32]). rewrite <- !app_assoc. cbn [app].
    rewrite (seg_word KTest "test") by (vm_compute; tauto). change (lit " { let ") with (32 :: 123 :: 32 :: lit "let" ++ [32]). cbn [app]. rewrite <- !app_assoc. cbn [app]. rewrite (seg_name t 32) by (auto using splits32).
    rewrite seg_space, (seg_lone KLb) by (vm_compute; tauto). rewrite seg_space, (seg_word KLet "let") by (vm_compute; tauto). change (lit " = ") with (32 :: lit "=" ++ [32]). cbn [app]. rewrite <- !app_assoc. cbn [app].
    rewrite (seg_name x 32) by (auto using splits32). rewrite seg_space, (seg_word KAssign "=") by (vm_compute; tauto). change (lit "()") with [40; 41]. cbn [app].
    rewrite (seg_name a 40) by (auto; apply splits_in; vm_compute; tauto). rewrite (seg_lone KLp 40) by (vm_compute; tauto). rewrite (seg_lone KRp 41) by (vm_compute; tauto).
    change (lit "; ") with [59; 32]. cbn [app]. rewrite (Ap 59) by (left; apply splits_lone; vm_compute; tauto). rewrite (seg_lone KSemi 59) by (vm_compute; tauto). rewrite seg_space. change (lit "() }") with [40; 41; 32; 125].
    rewrite (seg_name b 40) by (auto; apply splits_in; vm_compute; tauto). unfold wt, we. cbn [app]. do 9 f_equal. rewrite <- !app_assoc. reflexivity. }
  assert (J : reads_items (map let_item vars ++ [IRequest a ta (map expr_of ca); IRequest b tb (map expr_of cb); ITest t [ELet x (fold_left access ps (ECall a [])); ECall b []]]) (flat_map let_tokens vars ++ request_tokens a ta wa ++ request_tokens b tb wb ++ wt)).
  { apply reads_lets. apply rs_next; [now apply rt_request_asserts|]. apply rs_next; [now apply rt_request_asserts|]. rewrite <- (app_nil_r wt). apply rs_next; [|constructor]. apply rt_test.
    apply rb_next; [apply rd_let_semi, Rp|intros _; exact I|].
    apply (rb_next _ [Tok KIdent b; op KLp "("; op KRp ")"] [] []); [apply (rd_call _ b [] []); constructor|apply over_call; cbn; tauto|constructor]. }
  set (text := chain_suite vars a ta ca b tb cb t x (List.concat ts)) in *.
  destruct (proj2 (accepted text)) as [src P]; [eauto|].
  destruct (read_as _ _ _ _ P S J) as (E & M & Tt). rewrite lets_exprs in E. rewrite lets_requests in M. rewrite lets_tests in Tt. cbn [item_exprs flat_map app] in E. rewrite app_nil_r in E.
  destruct (lets_eval w vars (Ctx [] (mextend [] (s_requests src)) []) []) as [vs L].
  exists src, (St (with_vars vars (Ctx [] (mextend [] (s_requests src)) [])) []). split.
  { exists text. eexists. split; auto. split; auto. rewrite E. unfold eval_block. exact (exprs_in_order _ _ _ _ _ L VNull). }
  split. { apply Tt. exists [], []. auto. } split; auto.
  assert (ND : NoDup (map fst (s_requests src))) by (apply ParserTop.collected in P; destruct P as (is & u & _ & _ & _ & _ & _ & N & _); exact N).
  cbn [s_ctx with_vars c_reqs]. rewrite !extend_get by auto.
  assert (G : mget a (s_requests src) = Some (ta, map expr_of ca)) by (apply M; exists [], [(b, (tb, map expr_of cb))]; split; [reflexivity|intros [Y|[]]; apply AB; now symmetry]).
  assert (G' : mget b (s_requests src) = Some (tb, map expr_of cb)) by (apply M; exists [(a, (ta, map expr_of ca))], []; auto). now rewrite G, G'.
Qed.

(** ** a run *)
Lemma links_app ma a b : links_events ma (a ++ b) = links_events ma a ++ links_events ma b.
Proof. apply flat_map_app. Qed.
Lemma chain_iterated w c a ta ca b tb cb x p root ps ma vars : let body := [ELet x (fold_left access (p :: ps) (ECall a [])); ECall b []] in
  mget a (c_reqs c) = Some (ta, map expr_of ca) -> mget b (c_reqs c) = Some (tb, map expr_of cb) -> Forall well_written ca -> Forall well_written cb -> into p root ->
  texts_in w c vars -> filled vars ta ma -> (forall v, filled (vars ++ [(x, v)]) ta ma) ->
  answered w ma -> (forall v mb, filled (vars ++ [(x, v)]) tb mb -> answered w mb) ->
  (forall tr rs, heard w tr ma rs -> Forall (decidable_for rs) ca /\ exists y t, found rs root ps y /\ part_text y t) ->
  (forall v mb tr rs, filled (vars ++ [(x, v)]) tb mb -> heard w tr mb rs -> Forall (decidable_for rs) cb) ->
  forall k s bs, iterated w body c k s bs -> c_reqs (s_ctx s) = c_reqs c /\ c_recs (s_ctx s) = [] /\ (texts_in w (s_ctx s) vars \/ exists v, texts_in w (s_ctx s) (vars ++ [(x, v)])) /\
    exists ls, N.of_nat (length ls) = k /\ s_trace s = links_events ma ls /\ links_rightly w vars ma a ca b tb cb x root ps ls.
Proof.
  intros body Ga Gb Wa Wb P U F F' Aa Ab Da Db. induction 1 as [|k s bs v s1 It (R & Rc & Us & ls & L & Tr & Lk) E].
  - repeat split; auto. exists []. repeat split; destruct past; discriminate.
  - assert (Y : exists y0, texts_in w (s_ctx s) (vars ++ y0) /\ Forall (fun e => fst e = x) y0 /\ filled (vars ++ y0) ta ma).
    { destruct Us as [Us|[v0 Us]]; [exists []; rewrite app_nil_r; repeat split; auto|exists [(x, v0)]; repeat split; auto]. }
    destruct Y as (y0 & Uy & Fy & Ma). rewrite <- R in Ga, Gb.
    destruct (chain_once w s a ta ca b tb cb x p root ps ma vars y0 Ga Gb Wa Wb P Uy Fy Ma Rc Aa Ab Da Db) as (v' & s' & l & E' & R' & U' & T' & Pr & Q).
    subst body. rewrite E in E'. injection E' as _ ->. cbn [s_ctx c_reqs c_recs s_trace c_vars]. split; [congruence|]. split; auto. split; [right; exists (l_found l); intros n u X; exact (U' n u X)|].
    exists (ls ++ [l]). split; [rewrite app_length; cbn [length]; lia|]. split; [rewrite Pr, T', Tr, links_app, <- app_assoc; reflexivity|].
    intros past l' rest E'. destruct rest as [|z rest _] using rev_ind.
    + apply app_inj_tail in E'. destruct E' as [-> ->]. rewrite <- Tr. exact Q.
    + rewrite app_comm_cons, app_assoc in E'. apply app_inj_tail in E'. destruct E' as [E' _]. now apply (Lk past l' rest).
Qed.
Theorem chain_run iter w root threads duration number record pod d g vars a ta ca b tb cb t x part p ps ts ma q :
  definable vars a ta -> definable vars b tb -> a <> b -> Forall well_written ca -> Forall well_written cb -> new_name t -> new_name x -> into p part -> Forall2 turn_written (p :: ps) ts ->
  filled vars ta ma -> (forall v, filled (vars ++ [(x, v)]) ta ma) ->
  read_node (fst root) (snd root) = Some (chain_suite vars a ta ca b tb cb t x (List.concat ts)) -> threads <> 0 ->
  goes g (launch iter w root (Some t) threads duration number record pod d) q -> p_main q = Gone true ->
  (forall id, answered (g_world g id) ma) -> (forall id v mb, filled (vars ++ [(x, v)]) tb mb -> answered (g_world g id) mb) ->
  (forall id tr rs, heard (g_world g id) tr ma rs -> Forall (decidable_for rs) ca /\ exists y u, found rs part ps y /\ part_text y u) ->
  (forall id v mb tr rs, filled (vars ++ [(x, v)]) tb mb -> heard (g_world g id) tr mb rs -> Forall (decidable_for rs) cb) ->
  forall id, id < threads -> exists ls, events_of (Tester id) (p_log q) = links_events ma ls /\ links_rightly (g_world g id) vars ma a ca b tb cb x part ps ls /\
    N.of_nat (length ls) <= share duration number threads /\ (p_flag q = true -> N.of_nat (length ls) = share duration number threads).
Proof.
  intros D1 D2 AB Wa Wb T X P F Fa Fa' Rd Th G Gn An An' De De' id I.
  destruct (chain_loads w root vars a ta ca b tb cb t x (p :: ps) ts D1 D2 AB Wa Wb T X F Rd) as (src & s1 & L & B & C & Ma & Mb).
  assert (U : forall w', texts_in w' (s_ctx s1) vars). { intros w' n u Tx. rewrite C. now apply shown_text. }
  destruct (named_end iter w root t threads duration number record pod d g src s1 _ q L B Th G Gn) as (bss & Lb & H & _).
  destruct (nth_error bss (N.to_nat id)) as [bs|] eqn:Nb. 2: { apply nth_error_None in Nb. lia. }
  destruct (H id bs Nb) as [(s & It & Le & Y) _].
  destruct (chain_iterated _ _ _ _ _ _ _ _ _ _ _ _ _ _ Ma Mb Wa Wb P (U (g_world g id)) Fa Fa' (An id) (An' id) (De id) (De' id) _ _ _ It) as (R & Rc & Us & ls & Lr & Et & Rp).
  destruct Y as [[-> Y]|(Lt & o & s2 & E & O & _)].
  - exists ls. split; auto. split; auto. rewrite Lr. split; auto. intros Fg. rewrite Fg in Y. destruct Y as [Y|Y]; [auto|discriminate].
  - assert (Y : exists y0, texts_in (g_world g id) (s_ctx s) (vars ++ y0) /\ Forall (fun e => fst e = x) y0 /\ filled (vars ++ y0) ta ma).
    { destruct Us as [Us|[v0 Us]]; [exists []; rewrite app_nil_r; repeat split; auto|exists [(x, v0)]; repeat split; auto]. }
    destruct Y as (y0 & Uy & Fy & May). rewrite <- R in Ma, Mb.
    destruct (chain_once (g_world g id) s a ta ca b tb cb x p part ps ma vars y0 Ma Mb Wa Wb P Uy Fy May Rc (An id) (An' id) (De id) (De' id)) as (v' & s' & l & E' & _).
    rewrite E in E'. injection E' as -> _. destruct O as [O|[e O]]; discriminate.
Qed.
