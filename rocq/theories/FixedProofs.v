(** Suites whose tests do the same cannot be told apart by running them *)
From Coq Require Import Lia.
From Verif Require Import LexerProofs ParserTop EvaluatorTop TextProofs ValueProofs SyntaxProofs TemplateProofs EvaluatorProofs RunProofs ByLineProofs ReadComplete SpecReading ArrivesProofs SuiteProofs PrintsProofs ChainProofs WholeProofs SpecFixed.
Open Scope N_scope.

(** ** processes *)
Section Same.
  Variable R : list expr -> ctx -> list expr -> ctx -> Prop.
  Hypothesis R_same : same_doings R.

  Definition job_same (j j' : job) : Prop :=
    j_thread j' = j_thread j /\ j_file j' = j_file j /\ j_name j' = j_name j /\ j_limit j' = j_limit j /\ R (j_body j) (j_ctx j) (j_body j') (j_ctx j').
  Definition st_same (b b' : list expr) (s s' : st) : Prop := R b (s_ctx s) b' (s_ctx s') /\ s_trace s' = s_trace s.
  Definition tester_same (t t' : tester) : Prop :=
    job_same (te_job t) (te_job t') /\ te_env t' = te_env t /\ te_path t' = te_path t /\ te_accept t' = te_accept t /\ te_number t' = te_number t /\
    st_same (j_body (te_job t)) (j_body (te_job t')) (te_state t) (te_state t') /\ te_phase t' = te_phase t /\ te_todo t' = te_todo t.
  Inductive main_same : main_phase -> main_phase -> Prop :=
  | ms_starting js js' : Forall2 job_same js js' -> main_same (Starting js) (Starting js')
  | ms_other m : (forall js, m <> Starting js) -> main_same m m.
  Definition process_same (p p' : process) : Prop :=
    main_same (p_main p) (p_main p') /\ Forall2 tester_same (p_testers p) (p_testers p') /\ p_flag p' = p_flag p /\ p_queue p' = p_queue p /\ p_stats p' = p_stats p /\
    p_reported p' = p_reported p /\ p_log p' = p_log p /\ p_disk p' = p_disk p.
  Lemma new_same g j j' : job_same j j' -> tester_same (new_tester g j) (new_tester g j').
  Proof. intros H. pose proof H as (A & B & C & D & E). unfold new_tester. rewrite B, D, A. repeat split; auto. Qed.
  Lemma iteration_same stat t t' : tester_same t t' -> tester_same (iteration stat t) (iteration stat t').
  Proof.
    intros (J & E & P & A & N & S & Ph & Td). pose proof J as (J1 & J2 & J3 & J5 & J6). destruct S as [S Ts]. unfold iteration. rewrite E, J5, P, A, N.
    destruct (R_same _ _ _ _ S) as [H _]. destruct (H (te_env t) (s_trace (te_state t))) as (o & o' & c1 & c1' & tr1 & E1 & E2 & O & C & K).
    replace (te_state t) with (St (s_ctx (te_state t)) (s_trace (te_state t))) by now destruct (te_state t). replace (te_state t') with (St (s_ctx (te_state t')) (s_trace (te_state t))) by (rewrite <- Ts; now destruct (te_state t')).
    rewrite E1, E2.
    assert (Sn : since (St (s_ctx (te_state t')) (s_trace (te_state t))) (St c1' tr1) = since (St (s_ctx (te_state t)) (s_trace (te_state t))) (St c1 tr1)) by reflexivity.
    assert (Pu : forall rs k, puts t' rs k = puts t rs k) by (intros; unfold puts; now rewrite P, J3, J1).
    assert (Cl : R (j_body (te_job t)) (Ctx (c_vars c1) (c_reqs c1) []) (j_body (te_job t')) (Ctx (c_vars c1') (c_reqs c1') [])) by exact (proj2 (R_same _ _ _ _ K)).
    destruct o, o'; try contradiction O; cbn [same_end] in O; destruct (j_limit (te_job t)); cbn [ctx_records s_ctx s_trace]; rewrite ?C, ?Sn, ?Pu, ?O; (split; [exact J|]); cbn [te_env te_path te_accept te_number te_state te_phase te_todo]; repeat split; auto.
  Qed.
  Lemma move_same stat flag t t' a u : tester_same t t' -> tester_move stat flag t = Some (a, u) -> exists u', tester_move stat flag t' = Some (a, u') /\ tester_same u u'.
  Proof.
    intros L. pose proof L as (J & E & P & A & N & S & Ph & Td). pose proof J as (J1 & J2 & J3 & J5 & J6). unfold tester_move. rewrite Td, Ph, J5, N, E, P, A.
    destruct (te_todo t) as [|x rest].
    - destruct (te_phase t); try discriminate.
      + destruct (j_limit (te_job t)) as [m|]; [|discriminate]. intros H. injection H as <- <-. eexists. split; [reflexivity|]. split; [exact J|]. repeat split; auto; apply S.
      + intros H. injection H as <- <-. eexists. split; [reflexivity|]. now apply iteration_same.
    - intros H. injection H as <- <-. eexists. split; [reflexivity|]. split; [exact J|]. repeat split; auto; apply S.
  Qed.
  Lemma gone_same t t' : tester_same t t' -> gone t' = gone t.
  Proof. intros (_ & _ & _ & _ & _ & _ & Ph & Td). unfold gone. now rewrite Ph, Td. Qed.
  Lemma running_same m m' : main_same m m' -> running m' = running m.
  Proof. now destruct 1. Qed.
  Lemma main_other m m' : main_same m m' -> (forall js, m <> Starting js) -> m' = m.
  Proof. destruct 1; auto. intros X. now destruct (X js). Qed.
  Lemma Forall2_same (Q Q' : tester -> Prop) ts ts' : (forall t t', tester_same t t' -> Q t -> Q' t') -> Forall2 tester_same ts ts' -> Forall Q ts -> Forall Q' ts'.
  Proof. intros H. induction 1; intros F; inversion F; subst; constructor; eauto. Qed.
  Lemma step_same g p q p' : process_same p p' -> process_step g p q -> exists q', process_step g p' q' /\ process_same q q'.
  Proof.
    intros L S. destruct p' as [m' ts' flag' qu' st' rp' lg' dk']. destruct S;
      destruct L as (M & T & F & Q & Sx & Rp & Lg & D); cbn [p_main p_testers p_flag p_queue p_stats p_reported p_log p_disk] in *; subst flag' qu' st' rp' lg' dk'.
    - assert (Ex : exists j' js', m' = Starting (j' :: js') /\ job_same j j' /\ Forall2 job_same js js').
      { inversion M as [? ? X|? X]; subst; [inversion X; subst; eauto|]. now destruct (X (j :: js)). }
      destruct Ex as (j' & js' & -> & J & Js). pose proof (new_same g _ _ J) as N. assert (P : te_path (new_tester g j') = te_path (new_tester g j)) by apply N.
      eexists. split; [apply ps_start; rewrite P; assumption|]. rewrite P. split; [now constructor|]. split; [apply Forall2_app; auto|]. repeat split; auto.
    - assert (Ex : exists j' js', m' = Starting (j' :: js') /\ job_same j j').
      { inversion M as [? ? X|? X]; subst; [inversion X; subst; eauto|]. now destruct (X (j :: js)). }
      destruct Ex as (j' & js' & -> & J). pose proof (new_same g _ _ J) as N. assert (P : te_path (new_tester g j') = te_path (new_tester g j)) by apply N.
      eexists. split; [eapply ps_no_file; [rewrite P; eassumption|assumption]|]. split; [constructor; discriminate|]. repeat split; auto.
    - assert (m' = Starting []) by (inversion M as [? ? X|]; [inversion X; auto|auto]). subst m'. eexists. split; [apply ps_started|]. split; [constructor; discriminate|]. repeat split; auto.
    - apply Forall2_app_inv_l in T. destruct T as (us1 & us & T1 & T2 & ->). inversion T2 as [|? u ? us2 Tu T3]; subst.
      match goal with H : tester_move _ _ _ = _ |- _ => destruct (move_same _ _ _ _ _ _ Tu H) as (u' & Mu & Lu) end.
      eexists. split; [apply ps_tester; [rewrite (running_same _ _ M); assumption|exact Mu]|].
      pose proof Tu as (J & E & P & A & _). pose proof J as (J1 & _). unfold disk_after. rewrite P, A, J1. split; [exact M|]. split; [apply Forall2_app; auto|]. repeat split; auto.
    - apply main_other in M; [|discriminate]. subst m'. eexists. split; [apply ps_stop|]. split; [constructor; discriminate|]. repeat split; auto.
    - apply main_other in M; [|discriminate]. subst m'. eexists. split; [apply ps_receive; assumption|]. split; [constructor; discriminate|]. repeat split; auto.
    - apply main_other in M; [|discriminate]. subst m'. eexists. split; [apply ps_report; [assumption|]|].
      { eapply Forall2_same; [|exact T|eassumption]. cbn beta. intros t t' X [Y|Y]; [left; rewrite <- Y; apply X|right; rewrite (gone_same _ _ X); exact Y]. }
      split; [constructor; discriminate|]. repeat split; auto.
    - apply main_other in M; [|discriminate]. subst m'. eexists. split; [apply ps_exit; [|assumption]|].
      { eapply Forall2_same; [|exact T|eassumption]. cbn beta. intros t t' X Y. rewrite (gone_same _ _ X). exact Y. }
      split; [constructor; discriminate|]. repeat split; auto.
    - apply main_other in M; [|discriminate]. subst m'. eexists. split; [apply ps_die|]. split; [constructor; discriminate|]. repeat split; auto.
  Qed.
  Lemma goes_same g p q : goes g p q -> forall p', process_same p p' -> exists q', goes g p' q' /\ process_same q q'.
  Proof.
    induction 1 as [|p p1 p2 G IH S]; intros p' L; [exists p'; split; [constructor|exact L]|].
    destruct (IH p' L) as (q1 & G1 & L1). destruct (step_same _ _ _ _ L1 S) as (q2 & S2 & L2). exists q2. split; auto. econstructor; eauto.
  Qed.
  Lemma same_looks p p' : process_same p p' -> looks_like p p'.
  Proof. intros (M & _ & F & _ & _ & _ & Lg & D). repeat split; auto; intros E; rewrite E in M; inversion M; auto. Qed.
  Lemma named_same pod c c' name body body' m : R body c body' c' -> forall k id, Forall2 job_same (named_jobs pod c name body m id k) (named_jobs pod c' name body' m id k).
  Proof. intros H. pose proof (proj2 (R_same _ _ _ _ H)) as K. induction k as [|k IH]; intros id; cbn [named_jobs]; constructor; auto. repeat split; auto. Qed.
  Lemma all_same pod c c' : forall tests tests', Forall2 (fun x x' => fst x' = fst x /\ R (snd x) c (snd x') c') tests tests' -> forall id, Forall2 job_same (all_jobs pod c id tests) (all_jobs pod c' id tests').
  Proof.
    induction 1 as [|[n b] [n' b'] tests tests' [A B] _ IH]; intros id; cbn [all_jobs fst snd] in *; constructor; auto. pose proof (proj2 (R_same _ _ _ _ B)) as K. repeat split; auto.
  Qed.
End Same.

(** two suites that load alike and whose tests do the same *)
Theorem same_run R iter iter' w root root' src src' s1 s1' name threads duration number record pod d g p : same_doings R -> loads w root src s1 -> loads w root' src' s1' -> s_trace s1' = s_trace s1 ->
  (forall t, name = Some t -> match mget t (s_tests src), mget t (s_tests src') with Some b, Some b' => R b (s_ctx s1) b' (s_ctx s1') | None, None => True | _, _ => False end) ->
  (name = None -> Forall2 (fun x x' => fst x' = fst x /\ R (snd x) (s_ctx s1) (snd x') (s_ctx s1')) (iter (s_tests src)) (iter' (s_tests src'))) ->
  goes g (launch iter w root name threads duration number record pod d) p -> exists p', goes g (launch iter' w root' name threads duration number record pod d) p' /\ looks_like p p'.
Proof.
  intros Rs (text & v & Rd & P & E) (text' & v' & Rd' & P' & E') Tr Nm Al G.
  assert (L : process_same R (launch iter w root name threads duration number record pod d) (launch iter' w root' name threads duration number record pod d)).
  { unfold launch. rewrite Rd, Rd'. unfold main_test, test_command, test_setup. rewrite P, P'.
    change (upd (fun c => ctx_extend c (s_requests src)) (St ctx_new [])) with (St (Ctx [] (mextend [] (s_requests src)) []) []). change (upd (fun c => ctx_extend c (s_requests src')) (St ctx_new [])) with (St (Ctx [] (mextend [] (s_requests src')) []) []). rewrite E, E'.
    assert (Same : forall m m' l l', main_same R m m' -> l' = l -> process_same R (Process m [] true [] [] false (map (pair Main) l) d) (Process m' [] true [] [] false (map (pair Main) l') d)) by (intros m m' l l' M ->; repeat split; try constructor; exact M).
    destruct name as [n|].
    - specialize (Nm n eq_refl). destruct (mget n (s_tests src)) as [b|], (mget n (s_tests src')) as [b'|]; try contradiction.
      + destruct (maximun_of _ _); apply Same; auto; try (constructor; discriminate). constructor. now apply named_same.
      + apply Same; [constructor; constructor|]. unfold println_, emit. cbn [s_trace]. now rewrite Tr.
    - apply Same; auto. constructor. apply all_same; auto. }
  destruct (goes_same R Rs _ _ _ G _ L) as (p' & G' & L'). exists p'. split; auto. eapply same_looks; eauto.
Qed.

(** ** evaluating *)
Section Wording.
  Variables (texts texts' : list (str * str)) (D : list str).
  Definition ctx_worded (c c' : ctx) : Prop := has_texts texts c /\ has_texts texts' c' /\ agree_outside D c c' /\ same_wording texts texts' D (c_reqs c) (c_reqs c') /\ c_recs c' = c_recs c.
  Definition st_worded (s s' : st) : Prop := ctx_worded (s_ctx s) (s_ctx s') /\ s_trace s' = s_trace s.
  Definition worded {A} (m : evm A) : Prop := forall s s', st_worded s s' -> exists o s1 s1', m s = (o, s1) /\ m s' = (o, s1') /\ st_worded s1 s1'.
  Lemma worded_lift {A} (r : out everr A) : worded (lift r).
  Proof. intros s s' W. exists r, s, s'. auto. Qed.
  Lemma worded_bind {A B} (m : evm A) (k : A -> evm B) : worded m -> (forall a, worded (k a)) -> worded (bind m k).
  Proof.
    intros M K s s' W. destruct (M s s' W) as (o & s1 & s1' & E & E' & W1). unfold bind. rewrite E, E'. destruct o as [a|e| |]; [now apply K|exists (Err e), s1, s1'|exists Panic, s1, s1'|exists Diverge, s1, s1']; auto.
  Qed.
  Lemma worded_emit (v : value) t : worded (fun s => (Ok v, emit (Printed t) s)).
  Proof. intros s s' [W T]. exists (Ok v). do 2 eexists. split; [reflexivity|]. split; [reflexivity|]. split; [exact W|]. unfold emit. cbn. now rewrite T. Qed.
  Lemma worded_native h n vs : worded (native_call h n vs).
  Proof.
    unfold native_call.
    destruct (str_eqb n (lit "println")). { unfold native_println. destruct (native_format h vs); [apply worded_emit| | |]; apply worded_lift. }
    destruct (str_eqb n (lit "print")). { unfold native_print. destruct (native_format h vs); [apply worded_emit| | |]; apply worded_lift. }
    destruct (str_eqb n (lit "format")); [apply worded_lift|].
    destruct (str_eqb n (lit "length")); [apply worded_lift|].
    destruct (str_eqb n (lit "append")); apply worded_lift.
  Qed.
  (** the text of a template with the variables filled in *)
  Definition told (f : str -> str) (p : piece) : str := match p with Lit c => [c] | Hole n => f n end.
  Lemma told_fill f ps : fill ps (map f (holes ps)) = flat_map (told f) ps.
  Proof. induction ps as [|[c|n] ps IH]; auto; cbn [holes flat_map app map fill told]; fold (holes ps); now rewrite IH. Qed.
  Lemma told_spelt f (t : list (str * str)) ps : (forall n v, mget n t = Some v -> f n = v) -> flat_map (told f) (spelt t ps) = flat_map (told f) ps.
  Proof.
    intros H. induction ps as [|[c|n] ps IH]; cbn [spelt flat_map told app]; auto; [now rewrite <- IH|]. fold (spelt t ps).
    rewrite flat_map_app, IH. f_equal. destruct (mget n t) as [v|] eqn:E; [|cbn; now rewrite app_nil_r]. rewrite (H n v E). clear. induction v; cbn; auto. now rewrite IHv.
  Qed.
  Lemma told_agree f f' ps : (forall n, In (Hole n) ps -> f' n = f n) -> flat_map (told f') ps = flat_map (told f) ps.
  Proof. induction ps as [|[c|n] ps IH]; intros H; cbn [flat_map told]; auto; rewrite IH by (intros; apply H; now right); auto. rewrite (H n); auto. now left. Qed.
  Lemma worded_message w c c' ps ps' : ctx_worded c c' -> spelt texts ps = spelt texts' ps' -> (forall n, In n D -> ~ In (Hole n) (spelt texts ps)) ->
    fill ps' (map (shown w c') (holes ps')) = fill ps (map (shown w c) (holes ps)).
  Proof.
    intros (H & H' & A & _) E N. rewrite !told_fill. rewrite <- (told_spelt (shown w c) texts) by (intros n v X; apply (H n v X)).
    rewrite <- (told_spelt (shown w c') texts') by (intros n v X; apply (H' n v X)). rewrite <- E. apply told_agree. intros n I.
    unfold shown. rewrite A; auto. intros J. exact (N n J I).
  Qed.
  Lemma worded_call w n vs : worded (call_at w 1 n vs).
  Proof.
    intros s s' W. pose proof W as [C T]. pose proof C as (H & H' & A & Wd & Rc). rewrite !call_one. unfold ctx_request. specialize (Wd n).
    destruct (mget n (c_reqs (s_ctx s))) as [[m es]|], (mget n (c_reqs (s_ctx s'))) as [[m' es']|]; try contradiction; [|now apply worded_native].
    destruct Wd as (-> & ps & ps' & S & S' & E & N). pose proof (worded_message w _ _ _ _ C E N) as M.
    assert (X : substitute (var_text (e_host w) (s_ctx s')) m' = substitute (var_text (e_host w) (s_ctx s)) m) by (rewrite (substitute_spec _ _ _ S), (substitute_spec _ _ _ S'); exact M).
    unfold request_call. rewrite X. set (msg := substitute _ m). cbv zeta. rewrite T.
    assert (Em : st_worded (emit (Sent msg) s) (emit (Sent msg) s')) by (split; [exact C|unfold emit; cbn; now rewrite T]).
    destruct (client_send _ _ _) as [[[[rq rs] t] er]|e| |]; try (do 3 eexists; split; [reflexivity|]; split; [reflexivity|]; exact Em). destruct (to_map _ _) as [mp|e| |]; try (do 3 eexists; split; [reflexivity|]; split; [reflexivity|]; exact Em).
    replace (s_trace (emit (Sent msg) s')) with (s_trace (emit (Sent msg) s)) by (symmetry; apply Em).
    destruct (eval_asserts _ _ _ _) as [[as_|e| |] sl]; do 3 eexists; (split; [reflexivity|]; split; [reflexivity|]; split; [|reflexivity]); auto.
    unfold ctx_push. cbn [s_ctx]. split; [exact H|]. split; [exact H'|]. split; [exact A|]. split; [apply C|]. cbn [c_recs]. now rewrite Rc.
  Qed.
  Lemma worded_set n (v : value) : ~ In n (map fst texts ++ map fst texts') -> worded (fun s => (Ok v, upd (fun c => ctx_set c n v) s)).
  Proof.
    intros N s s' [(H & H' & A & Wd & Rc) T]. exists (Ok v). do 2 eexists. split; [reflexivity|]. split; [reflexivity|]. split; [|exact T].
    assert (Y : forall (l : list (str * str)) k u, mget k l = Some u -> In k (map fst l)) by (intros l k u X; apply mget_some_in in X; apply (in_map fst) in X; exact X).
    unfold upd, ctx_set. split; [|split; [|split; [|split]]]; cbn [s_ctx c_reqs c_recs]; auto.
    - intros k u X w. specialize (H k u X w). unfold shown in *. cbn [c_vars]. rewrite mget_mset_other; auto. intros ->. apply N, in_or_app. left. eauto.
    - intros k u X w. specialize (H' k u X w). unfold shown in *. cbn [c_vars]. rewrite mget_mset_other; auto. intros ->. apply N, in_or_app. right. eauto.
    - intros k K. cbn [c_vars]. destruct (str_eqb k n) eqn:E.
      + apply str_eqb_eq in E. subst. now rewrite !mget_mset_same.
      + apply str_eqb_neq in E. rewrite !mget_mset_other by auto. now apply A.
  Qed.
  Section Eval.
    Variables (h : host) (call : str -> list value -> evm value).
    Hypothesis call_worded : forall n vs, worded (call n vs).
    Let away := leaves texts texts' D.
    Lemma evl_worded es : Forall (fun e => away e -> worded (eval h call e)) es -> Forall away es -> worded (evl h call es).
    Proof.
      induction 1 as [|e es He _ IH]; intros W; [apply worded_lift|]. inversion W; subst. cbn [evl].
      apply worded_bind; [auto|]. intros v. apply worded_bind; [auto|]. intros vs. apply worded_lift.
    Qed.
    Lemma evp_worded ps : Forall (fun kv : expr * expr => (away (fst kv) -> worded (eval h call (fst kv))) /\ (away (snd kv) -> worded (eval h call (snd kv)))) ps ->
      Forall (fun kv => away (fst kv) /\ away (snd kv)) ps -> forall m, worded (evp h call m ps).
    Proof.
      induction 1 as [|[k v] ps [] _ IH]; intros W m; [apply worded_lift|]. inversion W as [|? ? [] W']; subst. cbn [evp fst snd] in *.
      apply worded_bind; [auto|]. intros kv. apply worded_bind; auto.
    Qed.
    Lemma block_worded es : Forall (fun e => away e -> worded (eval h call e)) es -> Forall away es -> forall v, worded (eval_exprs h call v es).
    Proof.
      induction 1 as [|e es He _ IH]; intros W v; [apply worded_lift|]. inversion W; subst. cbn [eval_exprs]. apply worded_bind; auto.
    Qed.
    Lemma away_list es : (forall n, In n D -> ~ In n (flat_map idents es)) -> (forall n, In n (map fst texts ++ map fst texts') -> ~ In n (flat_map let_names es)) -> Forall away es.
    Proof. intros A B. apply Forall_forall. intros e J. split; intros x X Y; [apply (A x X)|apply (B x X)]; apply in_flat_map; eauto. Qed.
    Lemma eval_worded e : away e -> worded (eval h call e).
    Proof.
      induction e as [z|f|b|x|es IH|ps IH|e i IHe IHi|e f IHe|n|n e IHe|t e IHe|t l r IHl IHr|e IHe|c a b IHc IHa IHb|n es IH] using expr_ind2;
        intros [W1 W2]; cbn [idents let_names] in W1, W2; try apply worded_lift.
      - rewrite eval_arr. apply worded_bind; [apply evl_worded; auto using away_list|]. intros; apply worded_lift.
      - rewrite eval_map. apply worded_bind; [|intros; apply worded_lift]. apply evp_worded; auto.
        apply Forall_forall. intros kv J. split; split; intros x X Y; [apply (W1 x X)|apply (W2 x X)|apply (W1 x X)|apply (W2 x X)]; apply in_flat_map; exists kv; rewrite in_app_iff; auto.
      - assert (away e) by (split; intros x X Y; [apply (W1 x X)|apply (W2 x X)]; rewrite in_app_iff; auto).
        assert (away i) by (split; intros x X Y; [apply (W1 x X)|apply (W2 x X)]; rewrite in_app_iff; auto).
        cbn [eval]. apply worded_bind; auto. intros. apply worded_bind; auto. intros; apply worded_lift.
      - cbn [eval]. apply worded_bind; [apply IHe; now split|]. intros; apply worded_lift.
      - cbn [eval]. intros s s' W. pose proof W as [(_ & _ & A & _) _]. unfold ctx_get. rewrite A by (intros J; apply (W1 n J); now left).
        destruct (mget n (c_vars (s_ctx s))); do 3 eexists; (split; [reflexivity|]; split; [reflexivity|]; exact W).
      - cbn [eval]. apply worded_bind; [apply IHe; split; [exact W1|intros x X Y; apply (W2 x X); now right]|]. intros. apply worded_set. intros X. apply (W2 n X). now left.
      - cbn [eval]. apply worded_bind; [apply IHe; now split|]. intros; apply worded_lift.
      - assert (away l) by (split; intros x X Y; [apply (W1 x X)|apply (W2 x X)]; rewrite in_app_iff; auto).
        assert (away r) by (split; intros x X Y; [apply (W1 x X)|apply (W2 x X)]; rewrite in_app_iff; auto).
        cbn [eval]. destruct (strict_op h (tkind t)).
        + apply worded_bind; auto. intros. apply worded_bind; auto. intros; apply worded_lift.
        + destruct (tkind t); try apply worded_lift; apply worded_bind; auto; intros v; destruct (falsy v); auto; apply worded_lift.
      - cbn [eval]. apply IHe. now split.
      - assert (away c) by (split; intros x X Y; [apply (W1 x X)|apply (W2 x X)]; rewrite in_app_iff; auto).
        rewrite eval_if. apply worded_bind; auto. intros v.
        destruct (falsy v); apply block_worded; auto; apply away_list; intros x X Y; [apply (W1 x X)|apply (W2 x X)|apply (W1 x X)|apply (W2 x X)]; rewrite !in_app_iff; auto.
      - rewrite eval_callx. apply worded_bind; [apply evl_worded; auto; apply away_list; auto|]. intros. apply call_worded.
    Qed.
  End Eval.
  Lemma exprs_worded w es v : Forall (leaves texts texts' D) es -> worded (eval_exprs (e_host w) (call_at w 1) v es).
  Proof.
    intros F. apply block_worded; [|exact F]. apply Forall_forall. intros e J. apply eval_worded. intros n vs. apply worded_call.
  Qed.
End Wording.

(** ** one program with the texts in the templates, the other with the texts in variables *)
Definition worded_tests texts texts' D (b : list expr) (c : ctx) (b' : list expr) (c' : ctx) : Prop := b' = b /\ Forall (leaves texts texts' D) b /\ ctx_worded texts texts' D c c'.
Lemma worded_doings texts texts' D : same_doings (worded_tests texts texts' D).
Proof.
  intros b c b' c' (-> & F & W). split.
  - intros w tr. destruct (exprs_worded texts texts' D w b VNull F (St c tr) (St c' tr) (conj W eq_refl)) as (o & [c1 tr1] & [c1' tr1'] & E & E' & W1 & T1). cbn in T1. subst tr1'.
    exists o, o, c1, c1', tr1. split; [exact E|]. split; [exact E'|]. split; [destruct o; cbn; auto|]. split; [apply W1|]. split; auto.
  - split; auto. split; auto. destruct W as (H & H' & A & Wd & _). repeat split; auto.
Qed.
Theorem worded_eval texts texts' D w es s s' : Forall (leaves texts texts' D) es -> has_texts texts (s_ctx s) -> has_texts texts' (s_ctx s') -> agree_outside D (s_ctx s) (s_ctx s') ->
  same_wording texts texts' D (c_reqs (s_ctx s)) (c_reqs (s_ctx s')) -> c_recs (s_ctx s') = c_recs (s_ctx s) -> s_trace s' = s_trace s ->
  exists o t t', eval_block w es s = (o, t) /\ eval_block w es s' = (o, t') /\ s_trace t' = s_trace t /\ c_recs (s_ctx t') = c_recs (s_ctx t) /\ agree_outside D (s_ctx t) (s_ctx t').
Proof.
  intros F H H' A Wd Rc T. destruct (exprs_worded texts texts' D w es VNull F s s') as (o & t & t' & E & E' & (_ & _ & A1 & _ & R1) & T1); [repeat split; auto|]. exists o, t, t'. auto.
Qed.
Theorem worded_run texts texts' D iter iter' w root root' text text' src src' defs defs' rest v vs v' vs' name threads duration number record pod d g p :
  read_node (fst root) (snd root) = Some text -> read_node (fst root') (snd root') = Some text' -> parse text = Ok src -> parse text' = Ok src' ->
  s_exprs src = defs ++ rest -> s_exprs src' = defs' ++ rest ->
  eval_block w defs (St (Ctx [] (mextend [] (s_requests src)) []) []) = (Ok v, St (Ctx vs (mextend [] (s_requests src)) []) []) ->
  eval_block w defs' (St (Ctx [] (mextend [] (s_requests src')) []) []) = (Ok v', St (Ctx vs' (mextend [] (s_requests src')) []) []) ->
  has_texts texts (Ctx vs [] []) -> has_texts texts' (Ctx vs' [] []) -> agree_outside D (Ctx vs [] []) (Ctx vs' [] []) ->
  same_wording texts texts' D (s_requests src) (s_requests src') -> Forall (leaves texts texts' D) rest ->
  (forall t, mget t (s_tests src') = mget t (s_tests src)) -> (forall t b, mget t (s_tests src) = Some b -> Forall (leaves texts texts' D) b) ->
  (name = None -> iter' (s_tests src') = iter (s_tests src) /\ forall t b, In (t, b) (iter (s_tests src)) -> mget t (s_tests src) = Some b) ->
  goes g (launch iter w root name threads duration number record pod d) p -> exists p', goes g (launch iter' w root' name threads duration number record pod d) p' /\ looks_like p p'.
Proof.
  intros Rd Rd' P P' X X' E E' H H' A Wd Lr Ts Lt It G.
  assert (ND : forall t s, parse t = Ok s -> NoDup (map fst (s_requests s))) by (intros t s Y; apply ParserTop.collected in Y; destruct Y as (is & u & _ & _ & _ & _ & _ & N & _); exact N).
  assert (Wd' : same_wording texts texts' D (mextend [] (s_requests src)) (mextend [] (s_requests src'))).
  { intros r. specialize (Wd r). rewrite !extend_get by eauto. destruct (mget r (s_requests src)) as [[]|], (mget r (s_requests src')) as [[]|]; auto. }
  destruct (exprs_worded texts texts' D w rest v Lr (St (Ctx vs (mextend [] (s_requests src)) []) []) (St (Ctx vs' (mextend [] (s_requests src')) []) [])) as (o & s1 & s1' & E1 & E1' & W1); [repeat split; auto|].
  assert (E2 : eval_block w (s_exprs src) (St (Ctx [] (mextend [] (s_requests src)) []) []) = (o, s1)) by (rewrite X; unfold eval_block in *; rewrite exprs_app; rewrite (bind_ok _ _ _ _ _ E); exact E1).
  assert (E2' : exists o', same_end (e_host w) o o' /\ eval_block w (s_exprs src') (St (Ctx [] (mextend [] (s_requests src')) []) []) = (o', s1')).
  { rewrite X'. unfold eval_block in *. rewrite exprs_app, (bind_ok _ _ _ _ _ E'). destruct rest as [|e rest].
    - cbn [eval_exprs] in *. unfold ret in *. injection E1 as <- <-. injection E1' as <-. exists (Ok v'). cbn. auto.
    - exists o. split; [destruct o; cbn; auto|]. exact E1'. }
  destruct E2' as (o' & O & E2'). destruct W1 as [W1 T1]. destruct o as [x|e| |], o' as [x'|e'| |]; try contradiction O.
  - eapply (same_run (worded_tests texts texts' D) iter iter' w root root' src src' s1 s1'); eauto using worded_doings.
    + exists text, x. auto.
    + exists text', x'. auto.
    + intros t _. rewrite Ts. destruct (mget t (s_tests src)) as [b|] eqn:B; auto. split; auto. split; eauto.
    + intros N. destruct (It N) as [It1 It2]. rewrite It1. clear It1 It. induction (iter (s_tests src)) as [|[t b] l IH]; constructor.
      * split; auto. split; auto. split; auto. cbn [snd]. eapply Lt, It2. now left.
      * apply IH. intros. apply It2. now right.
  - exists p. split; [|repeat split; auto]. revert G. unfold launch, main_test, test_command, test_setup. rewrite Rd, Rd', P, P'.
    change (upd (fun c => ctx_extend c (s_requests src)) (St ctx_new [])) with (St (Ctx [] (mextend [] (s_requests src)) []) []). change (upd (fun c => ctx_extend c (s_requests src')) (St ctx_new [])) with (St (Ctx [] (mextend [] (s_requests src')) []) []). rewrite E2, E2'.
    unfold println_, emit. cbn [s_trace]. cbn [same_end] in O. now rewrite T1, O.
  - exists p. split; [|repeat split; auto]. revert G. unfold launch, main_test, test_command, test_setup. rewrite Rd, Rd', P, P'.
    change (upd (fun c => ctx_extend c (s_requests src)) (St ctx_new [])) with (St (Ctx [] (mextend [] (s_requests src)) []) []). change (upd (fun c => ctx_extend c (s_requests src')) (St ctx_new [])) with (St (Ctx [] (mextend [] (s_requests src')) []) []). rewrite E2, E2'. now rewrite T1.
  - exists p. split; [|repeat split; auto]. revert G. unfold launch, main_test, test_command, test_setup. rewrite Rd, Rd', P, P'.
    change (upd (fun c => ctx_extend c (s_requests src)) (St ctx_new [])) with (St (Ctx [] (mextend [] (s_requests src)) []) []). change (upd (fun c => ctx_extend c (s_requests src')) (St ctx_new [])) with (St (Ctx [] (mextend [] (s_requests src')) []) []). rewrite E2, E2'. now rewrite T1.
Qed.

(** ** suites of requests and tests *)
Lemma text_exists vars n : exists t, text_of vars n t.
Proof.
  induction vars as [|[x v] vars (t & IH)] using rev_ind; [exists (lit "null"); right; auto|]. destruct (list_eq_dec N.eq_dec n x) as [->|Ne].
  - exists v. left. exists vars, []. auto.
  - exists t. destruct IH as [(a & b & -> & N)|[N ->]].
    + left. exists a, (b ++ [(x, v)]). split; [rewrite <- app_assoc; reflexivity|]. rewrite map_app, in_app_iff. cbn. intros [?|[?|[]]]; auto.
    + right. split; auto. rewrite map_app, in_app_iff. cbn. intros [?|[?|[]]]; auto.
Qed.
Lemma texts_of_names vars ns : exists texts : list (str * str), (forall n v, mget n texts = Some v -> text_of vars n v) /\ forall n, In n ns -> mget n texts <> None.
Proof.
  induction ns as [|n ns (texts & A & B)]; [exists []; split; [discriminate|intros n []]|]. destruct (text_exists vars n) as [t T]. exists (mset n t texts). split.
  - intros m v. destruct (list_eq_dec N.eq_dec m n) as [->|Ne]; [rewrite mget_mset_same; intros [= <-]; auto|rewrite mget_mset_other by auto; apply A].
  - intros m M. destruct (list_eq_dec N.eq_dec m n) as [->|Ne]; [rewrite mget_mset_same; discriminate|rewrite mget_mset_other by auto]. apply B. destruct M; [congruence|auto].
Qed.
Lemma spelt_filled vars texts : (forall n v, mget n texts = Some v -> text_of vars n v) -> (forall n a b, text_of vars n a -> text_of vars n b -> a = b) ->
  forall ps ts, (forall n, In n (holes ps) -> mget n texts <> None) -> Forall2 (text_of vars) (holes ps) ts -> spelt texts ps = map Lit (fill ps ts).
Proof.
  intros A U. induction ps as [|[c|n] ps IH]; intros ts B F; auto.
  - cbn [spelt flat_map app fill map]. fold (spelt texts ps). f_equal. apply IH; auto.
  - cbn [holes flat_map app] in *. fold (holes ps) in *. inversion F as [|? t ? ts' T F']; subst. cbn [spelt flat_map fill]. fold (spelt texts ps). rewrite map_app, (IH ts') by (auto; intros; apply B; now right).
    f_equal. destruct (mget n texts) as [v|] eqn:E; [|exfalso; apply (B n); auto; now left]. now rewrite (U n v t (A n v E) T).
Qed.
Lemma text_unique (w : env) vars n a b : text_of vars n a -> text_of vars n b -> a = b.
Proof.
  intros A B. rewrite <- (shown_text w (Ctx [] [] []) vars n a (fun _ _ => eq_refl) A). now apply shown_text.
Qed.
Lemma all_names (ts : list str) : exists ns, forall t ps, In t ts -> scan t ps -> incl (holes ps) ns.
Proof.
  induction ts as [|t ts (ns & H)]; [exists []; intros t ps []|]. destruct (scan_exists t) as [ps S]. exists (holes ps ++ ns). intros u qs [<-|I] Q n J; apply in_or_app.
  - left. now rewrite <- (scan_unique _ _ Q _ S).
  - right. eapply H; eauto.
Qed.
Lemma whole_read vars ds tests src : suite_fits vars ds tests -> parse (whole_suite vars ds tests) = Ok src ->
  s_exprs src = map (fun xv => ELet (fst xv) (EStr (snd xv))) vars /\
  (forall n d, mget n (s_requests src) = Some d <-> In (n, d) (map (fun q => (d_name q, (d_template q, map expr_of (d_checks q)))) ds)) /\
  (forall n b, mget n (s_tests src) = Some b <-> In (n, b) (map (fun tc => (fst tc, calls_of (snd tc))) tests)).
Proof.
  intros (V & Nd & D & Nt & T) P. destruct (requests_read ds) as (wr & Sr & Rr). { eapply Forall_impl; [|exact D]. cbn. intros q (A & B & C & _). auto. }
  destruct (tests_read tests) as (wt & Sg & Rt).
  { rewrite Forall_forall in *. intros tc I. destruct (T tc I) as [A B]. split; auto. rewrite Forall_forall. intros q J. destruct (D q (B q J)) as (X & _). exact X. }
  assert (S : segment (whole_suite vars ds tests) = (flat_map let_tokens vars ++ wr ++ wt) ++ [Tok KEof []]). { unfold whole_suite. rewrite seg_lets by exact V. rewrite Sr, Sg. now rewrite !app_assoc. }
  pose proof (reads_lets vars _ _ (Rr _ _ Rt)) as J.
  destruct (read_as _ _ _ _ P S J) as (E & M & Tt). rewrite lets_exprs in E. rewrite lets_requests in M. rewrite lets_tests in Tt.
  assert (E0 : item_exprs (map (fun q => IRequest (d_name q) (d_template q) (map expr_of (d_checks q))) ds ++ map (fun tc : str * list demand => ITest (fst tc) (calls_of (snd tc))) tests) = []).
  { clear. induction ds as [|q ds IH]; cbn; auto. induction tests; cbn; auto. }
  assert (E1 : item_requests (map (fun q => IRequest (d_name q) (d_template q) (map expr_of (d_checks q))) ds ++ map (fun tc : str * list demand => ITest (fst tc) (calls_of (snd tc))) tests) = map (fun q => (d_name q, (d_template q, map expr_of (d_checks q)))) ds).
  { clear. unfold item_requests. induction ds as [|q ds IH]; cbn [map app flat_map]; [induction tests; cbn; auto|now rewrite IH]. }
  assert (E2 : item_tests (map (fun q => IRequest (d_name q) (d_template q) (map expr_of (d_checks q))) ds ++ map (fun tc : str * list demand => ITest (fst tc) (calls_of (snd tc))) tests) = map (fun tc => (fst tc, calls_of (snd tc))) tests).
  { clear. unfold item_tests. induction ds as [|q ds IH]; cbn [map app flat_map]; [|exact IH]. induction tests as [|t ts IH]; cbn [map app flat_map]; auto. now rewrite IH. }
  rewrite E0, app_nil_r in E. rewrite E1 in M. rewrite E2 in Tt. split; auto. split; intros n d.
  - rewrite M. apply WholeProofs.last_of. rewrite map_map. exact Nd.
  - rewrite Tt. apply WholeProofs.last_of. rewrite map_map. exact Nt.
Qed.
Lemma same_calls calls calls' : Forall2 same_demand calls calls' -> calls_of calls' = calls_of calls.
Proof. induction 1 as [|q q' calls calls' (N & _) _ IH]; auto. cbn [calls_of map]. fold (calls_of calls) (calls_of calls'). now rewrite N, IH. Qed.
Lemma calls_leave texts texts' D calls : Forall (leaves texts texts' D) (calls_of calls).
Proof. induction calls; constructor; auto. split; intros n _ []. Qed.
Lemma template_spelt (w : env) vars texts t msg ps : (forall n v, mget n texts = Some v -> text_of vars n v) -> (forall n, In n (holes ps) -> mget n texts <> None) -> filled vars t msg -> scan t ps -> spelt texts ps = map Lit msg.
Proof.
  intros A B (ps' & ts & S & F & ->) S'. rewrite (scan_unique _ _ S' _ S) in *. eapply spelt_filled; eauto using text_unique.
Qed.
Lemma same_in {A} (R : A -> A -> Prop) l l' : Forall2 R l l' -> (forall x, In x l -> exists x', In x' l' /\ R x x') /\ forall x', In x' l' -> exists x, In x l /\ R x x'.
Proof.
  induction 1 as [|a a' l l' Ra _ (X & Y)]; split; try (intros x []; fail).
  - intros x [<-|I]; [exists a'; split; auto; now left|]. destruct (X x I) as (x' & J & K). exists x'. split; auto. now right.
  - intros x [<-|I]; [exists a; split; auto; now left|]. destruct (Y x I) as (x' & J & K). exists x'. split; auto. now right.
Qed.
Lemma named_once {A B} (f : A -> B) l x y : NoDup (map f l) -> In x l -> In y l -> f x = f y -> x = y.
Proof.
  induction l as [|a l IH]; intros N I J E; [contradiction|]. cbn [map] in N. inversion N as [|? ? N1 N2]; subst. destruct I as [<-|I], J as [<-|J]; auto.
  - exfalso. apply N1. rewrite E. now apply in_map.
  - exfalso. apply N1. rewrite <- E. now apply in_map.
Qed.
Theorem messages_run iter iter' w root root' vars vars' ds ds' tests tests' name threads duration number record pod d g p :
  suite_fits vars ds tests -> suite_fits vars' ds' tests' -> Forall2 same_demand ds ds' -> Forall2 (fun t t' => fst t' = fst t /\ Forall2 same_demand (snd t) (snd t')) tests tests' ->
  read_node (fst root) (snd root) = Some (whole_suite vars ds tests) -> read_node (fst root') (snd root') = Some (whole_suite vars' ds' tests') ->
  (forall src src', parse (whole_suite vars ds tests) = Ok src -> parse (whole_suite vars' ds' tests') = Ok src' -> name = None -> iter' (s_tests src') = iter (s_tests src) /\ Permutation (iter (s_tests src)) (s_tests src)) ->
  goes g (launch iter w root name threads duration number record pod d) p -> exists p', goes g (launch iter' w root' name threads duration number record pod d) p' /\ looks_like p p'.
Proof.
  intros S S' Sd Stt Rd Rd' It G.
  destruct (whole_loads w root vars ds tests S Rd) as (src & s1 & (text & v & Rt & P & E) & _). rewrite Rd in Rt. injection Rt as <-.
  destruct (whole_loads w root' vars' ds' tests' S' Rd') as (src' & s1' & (text' & v' & Rt' & P' & E') & _). rewrite Rd' in Rt'. injection Rt' as <-. clear s1 s1' v v' E E'.
  destruct (whole_read _ _ _ _ S P) as (X & Q & T), (whole_read _ _ _ _ S' P') as (X' & Q' & T').
  destruct (lets_eval w vars (Ctx [] (mextend [] (s_requests src)) []) []) as [us L], (lets_eval w vars' (Ctx [] (mextend [] (s_requests src')) []) []) as [us' L'].
  apply exprs_in_order with (v := VNull) in L. apply exprs_in_order with (v := VNull) in L'.
  destruct (all_names (map d_template ds)) as (ns & Ns), (all_names (map d_template ds')) as (ns' & Ns').
  destruct (texts_of_names vars ns) as (texts & A & B), (texts_of_names vars' ns') as (texts' & A' & B').
  assert (Te : map (fun tc => (fst tc, calls_of (snd tc))) tests' = map (fun tc => (fst tc, calls_of (snd tc))) tests).
  { clear -Stt. induction Stt as [|t t' tests tests' (N & C) _ IH]; auto. cbn [map]. now rewrite IH, N, (same_calls _ _ C). }
  assert (NDt : forall t s, parse t = Ok s -> NoDup (map fst (s_tests s))) by (intros t s Y; apply ParserTop.collected in Y; destruct Y as (is & u & Y); tauto).
  eapply (worded_run texts texts' (map fst vars ++ map fst vars') iter iter' w root root' _ _ src src' _ _ [] _ _ _ _ name threads duration number record pod d g p Rd Rd' P P');
    [rewrite app_nil_r; exact X|rewrite app_nil_r; exact X'|exact L|exact L'| | | | | | | | |exact G].
  - intros n u Y w'. apply (shown_text w' (Ctx [] [] []) vars n u); auto.
  - intros n u Y w'. apply (shown_text w' (Ctx [] [] []) vars' n u); auto.
  - intros n N. cbn [c_vars]. rewrite (proj2 (vars_get vars n [])), (proj2 (vars_get vars' n [])); auto; intros I; apply N, in_or_app; auto.
  - destruct S as (_ & _ & Fd & _), S' as (_ & Nd' & Fd' & _). rewrite Forall_forall in Fd, Fd'. destruct (same_in _ _ _ Sd) as [In1 In2]. intros r.
    destruct (mget r (s_requests src)) as [[t a]|] eqn:Er, (mget r (s_requests src')) as [[t' a']|] eqn:Er'; auto.
    + apply Q in Er. apply Q' in Er'. apply in_map_iff in Er. apply in_map_iff in Er'. destruct Er as (q & Eq & I), Er' as (q' & Eq' & I'). injection Eq as Eq1 <- <-. injection Eq' as Eq2 <- <-.
      destruct (In1 q I) as (q2 & I2 & N2 & C2 & M2). assert (q2 = q').
      { apply (named_once d_name ds'); auto. congruence. }
      subst q2. split; [now rewrite C2|]. destruct (scan_exists (d_template q)) as [ps Ps], (scan_exists (d_template q')) as [ps' Ps']. exists ps, ps'. split; auto. split; auto.
      assert (E1 : spelt texts ps = map Lit (d_message q)). { eapply (template_spelt w vars); eauto; [|apply (Fd q I)]. intros n J. apply B. exact (Ns (d_template q) ps (in_map _ _ _ I) Ps n J). }
      assert (E2 : spelt texts' ps' = map Lit (d_message q')). { eapply (template_spelt w vars'); eauto; [|apply (Fd' q' I')]. intros n J. apply B'. exact (Ns' (d_template q') ps' (in_map _ _ _ I') Ps' n J). }
      split; [now rewrite E1, E2, M2|]. intros n _. rewrite E1. intros J. apply in_map_iff in J. destruct J as (c & J & _). discriminate.
    + apply Q in Er. apply in_map_iff in Er. destruct Er as (q & Eq & I). injection Eq as Eq _ _. destruct (In1 q I) as (q2 & I2 & N2 & _).
      assert (Y : mget r (s_requests src') = Some (d_template q2, map expr_of (d_checks q2))) by (apply Q', in_map_iff; exists q2; split; auto; congruence). congruence.
    + apply Q' in Er'. apply in_map_iff in Er'. destruct Er' as (q & Eq & I). injection Eq as Eq _ _. destruct (In2 q I) as (q2 & I2 & N2 & _).
      assert (Y : mget r (s_requests src) = Some (d_template q2, map expr_of (d_checks q2))) by (apply Q, in_map_iff; exists q2; split; auto; congruence). congruence.
  - constructor.
  - intros t. destruct (mget t (s_tests src)) as [b|] eqn:Eb.
    + apply T'. rewrite Te. now apply T.
    + destruct (mget t (s_tests src')) as [b|] eqn:Eb'; auto. apply T' in Eb'. rewrite Te in Eb'. apply T in Eb'. congruence.
  - intros t b Y. apply T, in_map_iff in Y. destruct Y as (tc & Y & _). injection Y as _ <-. apply calls_leave.
  - intros N. destruct (It src src' P P' N) as [It1 It2]. split; auto. intros t b I. apply in_mget; eauto. eapply Permutation_in; eauto.
Qed.
