(** Proofs: a run in which nothing panics is the same in both builds *)
From Verif Require Import TextProofs SyntaxProofs ParserTop EvaluatorProofs EvaluatorTop SafeProofs BuildProofs RunProofs TestProofs ProcessProofs ProcessTop LiveProofs SpecProcess SpecBuilt.
Open Scope N_scope.

Definition rebuilt (t : tester) (w : env) : tester := Test (te_job t) w (te_path t) (te_accept t) (te_number t) (te_state t) (te_phase t) (te_todo t).
Definition built_tester (t t' : tester) : Prop := exists w, te_env t = in_build true w /\ t' = rebuilt t (in_build false w).
Lemma iteration_built stat t t' : built_tester t t' -> built_tester (iteration stat t) (iteration stat t') \/ te_phase (iteration stat t) = Crashed.
Proof.
  intros (w & Ew & ->). unfold iteration, rebuilt. cbn [te_job te_env te_path te_accept te_number te_state te_phase te_todo]. rewrite Ew.
  destruct (builds_agree w (j_body (te_job t)) (te_state t)) as [Eq|(s1 & Pn & _)].
  - rewrite <- Eq. left. exists w. destruct (eval_block (in_build true w) _ (te_state t)) as [o s1]. unfold puts. cbn [te_job te_path].
    destruct o as [v|e| |], (j_limit (te_job t)); try destruct (ctx_records (s_ctx s1)) as [rs c]; cbn [te_job te_env te_path te_accept te_number te_state te_phase te_todo]; split; auto;
      unfold in_build; cbn [e_host]; now rewrite text_same.
  - rewrite Pn. right. reflexivity.
Qed.
Lemma move_built stat flag t t' a t1 : built_tester t t' -> tester_move stat flag t = Some (a, t1) ->
  (exists t1', tester_move stat flag t' = Some (a, t1') /\ built_tester t1 t1') \/ te_phase t1 = Crashed.
Proof.
  intros P M. pose proof (iteration_built stat _ _ P) as It. destruct P as (w & Ew & ->). unfold tester_move, rebuilt in *. cbn [te_job te_env te_path te_accept te_number te_state te_phase te_todo] in *.
  destruct (te_todo t) as [|x l] eqn:Td.
  - destruct (te_phase t) eqn:Pt; try discriminate.
    + destruct (j_limit (te_job t)) as [m|]; [|discriminate]. injection M as <- <-. left. eexists. split; [reflexivity|]. exists w. split; [exact Ew|]. reflexivity.
    + injection M as <- <-. destruct It as [It|It]; [left|now right]. eexists. split; [reflexivity|exact It].
  - injection M as <- <-. left. eexists. split; [reflexivity|]. exists w. split; [exact Ew|]. reflexivity.
Qed.
Lemma move_back stat flag t t' a t1' : built_tester t t' -> tester_move stat flag t' = Some (a, t1') ->
  exists t1, tester_move stat flag t = Some (a, t1) /\ (built_tester t1 t1' \/ te_phase t1 = Crashed).
Proof.
  intros P M. pose proof (iteration_built stat _ _ P) as It. destruct P as (w & Ew & ->). unfold tester_move, rebuilt in *. cbn [te_job te_env te_path te_accept te_number te_state te_phase te_todo] in *.
  destruct (te_todo t) as [|x l] eqn:Td.
  - destruct (te_phase t) eqn:Pt; try discriminate.
    + destruct (j_limit (te_job t)) as [m|]; [|discriminate]. injection M as <- <-. eexists. split; [reflexivity|]. left. exists w. split; [exact Ew|]. reflexivity.
    + injection M as <- <-. eexists. split; [reflexivity|]. exact It.
  - injection M as <- <-. eexists. split; [reflexivity|]. left. exists w. split; [exact Ew|]. reflexivity.
Qed.
Lemma move_crashed stat flag t a t1 : tester_move stat flag t = Some (a, t1) -> te_phase t = Crashed -> te_phase t1 = Crashed.
Proof. unfold tester_move. intros M C. rewrite C in M. destruct (te_todo t); [discriminate|]. injection M as <- <-. reflexivity. Qed.
Lemma step_unhurt g p p1 : process_step g p p1 -> unhurt p1 -> unhurt p.
Proof.
  unfold unhurt. destruct 1; cbn [p_testers]; auto.
  - intros U. apply Forall_app in U. apply U.
  - intros U. apply Forall_app in U. destruct U as [U1 U2]. inversion U2; subst. apply Forall_app. split; auto. constructor; auto. intros C. match goal with H : te_phase t' <> _ |- _ => apply H end. eapply move_crashed; eauto.
Qed.
Lemma new_built g j : built_tester (new_tester (setting_in true g) j) (new_tester (setting_in false g) j).
Proof. exists (g_world g (j_thread j)). split; reflexivity. Qed.
Record built_process (p p' : process) : Prop := {
  bp_main : p_main p' = p_main p;
  bp_testers : Forall2 built_tester (p_testers p) (p_testers p');
  bp_flag : p_flag p' = p_flag p;
  bp_queue : p_queue p' = p_queue p;
  bp_stats : p_stats p' = p_stats p;
  bp_reported : p_reported p' = p_reported p;
  bp_log : p_log p' = p_log p;
  bp_disk : p_disk p' = p_disk p
}.
Lemma all_gone ts ts' : Forall2 built_tester ts ts' -> Forall (fun t => gone t = true) ts <-> Forall (fun t => gone t = true) ts'.
Proof.
  induction 1 as [|t t' ts ts' (w & _ & ->) _ IH]; [split; constructor|]. change (gone (rebuilt t (in_build false w))) with (gone t).
  split; intros H; inversion H; subst; constructor; try tauto; assumption.
Qed.
Lemma all_left ts ts' : Forall2 built_tester ts ts' -> Forall (fun t => j_limit (te_job t) = None \/ gone t = true) ts <-> Forall (fun t => j_limit (te_job t) = None \/ gone t = true) ts'.
Proof.
  induction 1 as [|t t' ts ts' (w & _ & ->) _ IH]; [split; constructor|].
  split; intros H; inversion H; subst; constructor; try tauto; assumption.
Qed.
Lemma step_built g p p1 p' : built_process p p' -> process_step (setting_in true g) p p1 -> unhurt p1 -> exists p1', process_step (setting_in false g) p' p1' /\ built_process p1 p1'.
Proof.
  intros [M T F Q Q2 Rr L D] S U. destruct p' as [m' ts' flag' q' st' r' l' d']. cbn in M, T, F, Q, Q2, Rr, L, D.
  destruct S; cbn in M, T, F, Q, Q2, Rr, L, D; subst.
  - eexists. split; [apply ps_start; assumption|]. split; cbn [p_main p_testers p_flag p_queue p_stats p_reported p_log p_disk]; auto. apply Forall2_app; auto. constructor; [apply new_built|constructor].
  - eexists. split; [eapply ps_no_file; eassumption|]. split; cbn; auto.
  - eexists. split; [apply ps_started|]. split; cbn; auto.
  - apply Forall2_app_inv_l in T. destruct T as (u1 & u2 & T1 & T2 & ->). inversion T2 as [|? t0 ? u2' Tt T3]; subst.
    match goal with H : tester_move _ _ _ = _ |- _ => destruct (move_built _ _ _ _ _ _ Tt H) as [(t1' & Mv & Tn)|Cr] end.
    + eexists. split; [eapply ps_tester; [assumption|exact Mv]|]. destruct Tt as (w & _ & ->). split; cbn [p_main p_testers p_flag p_queue p_stats p_reported p_log p_disk]; auto. apply Forall2_app; auto.
    + exfalso. unfold unhurt in U. cbn [p_testers] in U. apply Forall_app in U. destruct U as [_ U]. inversion U; subst. contradiction.
  - eexists. split; [apply ps_stop|]. split; cbn; auto.
  - eexists. split; [apply ps_receive; assumption|]. split; cbn; auto.
  - eexists. split; [apply ps_report; [assumption|now apply (all_left _ _ T)]|]. split; cbn; auto.
  - eexists. split; [apply ps_exit; [now apply (all_gone _ _ T)|reflexivity]|]. split; cbn; auto.
  - eexists. split; [apply ps_die|]. split; cbn; auto.
Qed.
Lemma step_back g p p' p1' : built_process p p' -> process_step (setting_in false g) p' p1' -> exists p1, process_step (setting_in true g) p p1 /\ (built_process p1 p1' \/ ~ unhurt p1).
Proof.
  intros [M T F Q Q2 Rr L D] S. destruct p as [m ts0 flag0 q0 st0 r0 l0 d0]. cbn in M, T, F, Q, Q2, Rr, L, D.
  destruct S; cbn in M, T, F, Q, Q2, Rr, L, D; subst.
  - eexists. split; [apply ps_start; assumption|]. left. split; cbn [p_main p_testers p_flag p_queue p_stats p_reported p_log p_disk]; auto. apply Forall2_app; auto. constructor; [apply new_built|constructor].
  - eexists. split; [eapply ps_no_file; eassumption|]. left. split; cbn; auto.
  - eexists. split; [apply ps_started|]. left. split; cbn; auto.
  - apply Forall2_app_inv_r in T. destruct T as (u1 & u2 & T1 & T2 & ->). inversion T2 as [|t0 ? u2' ? Tt T3]; subst.
    match goal with H : tester_move _ _ _ = _ |- _ => destruct (move_back _ _ _ _ _ _ Tt H) as (t1 & Mv & Tn) end.
    eexists. split; [eapply ps_tester; [assumption|exact Mv]|]. destruct Tn as [Tn|Cr].
    + left. destruct Tt as (w & _ & ->). split; cbn [p_main p_testers p_flag p_queue p_stats p_reported p_log p_disk]; auto. apply Forall2_app; auto.
    + right. unfold unhurt. cbn [p_testers]. intros U. apply Forall_app in U. destruct U as [_ U]. inversion U; subst. contradiction.
  - eexists. split; [apply ps_stop|]. left. split; cbn; auto.
  - eexists. split; [apply ps_receive; assumption|]. left. split; cbn; auto.
  - eexists. split; [apply ps_report; [assumption|now apply (all_left _ _ T)]|]. left. split; cbn; auto.
  - eexists. split; [apply ps_exit; [now apply (all_gone _ _ T)|reflexivity]|]. left. split; cbn; auto.
  - eexists. split; [apply ps_die|]. left. split; cbn; auto.
Qed.
Lemma goes_built g p p1 : goes (setting_in true g) p p1 -> unhurt p1 -> forall p', built_process p p' -> exists p1', goes (setting_in false g) p' p1' /\ built_process p1 p1'.
Proof.
  induction 1 as [p|p p1 p2 G IH S]; intros U p' P; [exists p'; split; [constructor|exact P]|].
  destruct (IH (step_unhurt _ _ _ S U) _ P) as (p1' & G' & P1). destruct (step_built _ _ _ _ P1 S U) as (p2' & S' & P2). exists p2'. split; [eapply go_step; eassumption|exact P2].
Qed.
Lemma goes_back g p p' p1' : (forall p1, goes (setting_in true g) p p1 -> unhurt p1) -> built_process p p' -> goes (setting_in false g) p' p1' -> exists p1, goes (setting_in true g) p p1 /\ built_process p1 p1'.
Proof.
  intros U P G. induction G as [p'|p' p1' p2' G IH S]; [exists p; split; [constructor|exact P]|].
  destruct (IH P) as (p1 & G1 & P1). destruct (step_back _ _ _ _ P1 S) as (p2 & S2 & [P2|X]); [exists p2; split; [eapply go_step; eassumption|exact P2]|]. destruct X. apply U. eapply go_step; eassumption.
Qed.
Lemma built_refl p : p_testers p = [] -> built_process p p.
Proof. intros E. split; auto. rewrite E. constructor. Qed.
Lemma launch_fresh iter w root name threads duration number record pod d : p_testers (launch iter w root name threads duration number record pod d) = [].
Proof. unfold launch. destruct (read_node _ _) as [text|]; [|reflexivity]. destruct (main_test _ _ _ _ _ _ _ _) as [[[js|]|e| |] s]; reflexivity. Qed.
Lemma launch_built iter w root name threads duration number record pod d src s1 : loads (in_build true w) root src s1 ->
  launch iter (in_build false w) root name threads duration number record pod d = launch iter (in_build true w) root name threads duration number record pod d.
Proof.
  intros (text & v & Rd & Ps & Ev). unfold launch. rewrite Rd. unfold main_test, test_command, test_setup. rewrite Ps.
  change (upd (fun c => ctx_extend c (s_requests src)) (St ctx_new [])) with (St (Ctx [] (mextend [] (s_requests src)) []) []).
  destruct (builds_agree w (s_exprs src) (St (Ctx [] (mextend [] (s_requests src)) []) [])) as [Eq|(s2 & Pn & _)]; [|rewrite Pn in Ev; discriminate]. rewrite <- Eq, Ev. reflexivity.
Qed.
Theorem built_run g iter w root name threads duration number record pod d src s1 p : loads (in_build true w) root src s1 ->
  goes (setting_in true g) (launch iter (in_build true w) root name threads duration number record pod d) p -> unhurt p ->
  exists p', goes (setting_in false g) (launch iter (in_build false w) root name threads duration number record pod d) p' /\
    p_main p' = p_main p /\ p_flag p' = p_flag p /\ p_log p' = p_log p /\ p_disk p' = p_disk p.
Proof.
  intros L G U. rewrite (launch_built _ _ _ _ _ _ _ _ _ _ _ _ L). destruct (goes_built g _ _ G U _ (built_refl _ (launch_fresh _ _ _ _ _ _ _ _ _ _))) as (p' & G' & [M T F Q Q2 Rr Lg D]). exists p'. auto.
Qed.
Theorem built_back g iter w root name threads duration number record pod d src s1 p' : loads (in_build true w) root src s1 ->
  (forall p, goes (setting_in true g) (launch iter (in_build true w) root name threads duration number record pod d) p -> unhurt p) ->
  goes (setting_in false g) (launch iter (in_build false w) root name threads duration number record pod d) p' ->
  exists p, goes (setting_in true g) (launch iter (in_build true w) root name threads duration number record pod d) p /\
    p_main p' = p_main p /\ p_flag p' = p_flag p /\ p_log p' = p_log p /\ p_disk p' = p_disk p.
Proof.
  intros L U G. rewrite (launch_built _ _ _ _ _ _ _ _ _ _ _ _ L) in G. destruct (goes_back g _ _ _ U (built_refl _ (launch_fresh _ _ _ _ _ _ _ _ _ _)) G) as (p & G' & [M T F Q Q2 Rr Lg D]). exists p. auto.
Qed.

(** ** texts without operators that can panic *)
Definition safe_job (j : job) : Prop := Forall (no_risk true) (j_body j) /\ no_risk_requests true (St (j_ctx j) []).
Definition safe_tester (t : tester) : Prop := steady (te_env t) /\ h_checks (e_host (te_env t)) = true /\ Forall (no_risk true) (j_body (te_job t)) /\ no_risk_requests true (te_state t) /\ te_phase t <> Crashed.
Definition safe_process (p : process) : Prop := Forall safe_tester (p_testers p) /\ match p_main p with Starting js => Forall safe_job js | _ => True end.
Lemma safe_iteration stat t : safe_tester t -> safe_tester (iteration stat t).
Proof.
  intros (A & B & C & D & E). pose proof (never_aborts (te_env t) (j_body (te_job t)) (te_state t) A) as N. rewrite B in N. specialize (N C D).
  unfold iteration. destruct (eval_block (te_env t) (j_body (te_job t)) (te_state t)) as [o s1] eqn:Ev. destruct (block_frame _ _ _ _ _ Ev) as (_ & Rq & _).
  assert (D1 : forall c tr, c_reqs c = c_reqs (s_ctx s1) -> no_risk_requests true (St c tr)) by (intros c tr Q; unfold no_risk_requests; cbn [s_ctx]; rewrite Q, Rq; exact D).
  cbn [fst] in N. unfold ctx_records, safe_tester. destruct o as [v|e| |], (j_limit (te_job t)); try congruence; cbn [te_job te_env te_path te_accept te_number te_state te_phase te_todo];
    (split; [exact A|split; [exact B|split; [exact C|split; [|discriminate]]]]); try (apply D1; reflexivity); destruct s1; apply D1; reflexivity.
Qed.
Lemma safe_move stat flag t a t1 : safe_tester t -> tester_move stat flag t = Some (a, t1) -> safe_tester t1.
Proof.
  intros Sf M. pose proof (safe_iteration stat t Sf) as It. destruct Sf as (A & B & C & D & E). unfold tester_move in M. destruct (te_todo t) as [|x l].
  - destruct (te_phase t); try discriminate.
    + destruct (j_limit (te_job t)) as [m|]; [|discriminate]. injection M as <- <-. repeat (split; [assumption|]). cbn [te_phase]. destruct (flag && _)%bool; discriminate.
    + injection M as <- <-. exact It.
  - injection M as <- <-. repeat (split; [assumption|]). exact E.
Qed.
Lemma safe_step g p p1 : (forall id, steady (g_world g id)) -> process_step (setting_in true g) p p1 -> safe_process p -> safe_process p1.
Proof.
  intros W S. destruct S; unfold safe_process; cbn [p_main p_testers]; intros [T M]; auto.
  - inversion M as [|? ? [J1 J2] Js]; subst. split; [|exact Js]. apply Forall_app. split; auto. constructor; [|constructor]. split; [exact (W _)|]. split; [reflexivity|]. split; [exact J1|]. split; [exact J2|]. unfold new_tester. cbn [te_phase]. destruct (j_limit j); discriminate.
  - apply Forall_app in T. destruct T as [T1 T2]. inversion T2; subst. split; auto. apply Forall_app. split; auto. constructor; auto. eapply safe_move; eauto.
Qed.
Lemma safe_named pod c name body m n : Forall (no_risk true) body -> no_risk_requests true (St c []) -> forall id, Forall safe_job (named_jobs pod c name body m id n).
Proof. intros B R. induction n as [|n IH]; intros id; cbn [named_jobs]; constructor; auto. split; [exact B|exact R]. Qed.
Lemma safe_all pod c tests : (forall name body, In (name, body) tests -> Forall (no_risk true) body) -> no_risk_requests true (St c []) -> forall id, Forall safe_job (all_jobs pod c id tests).
Proof. intros B R. induction tests as [|[n b] ts IH]; intros id; cbn [all_jobs]; constructor; [split; [apply (B n); now left|exact R]|]. apply IH. intros m x I. apply (B m). now right. Qed.
Lemma safe_launch iter w root name threads duration number record pod d src s1 : loads w root src s1 -> risk_free src -> (forall x, In x (iter (s_tests src)) -> In x (s_tests src)) ->
  safe_process (launch iter w root name threads duration number record pod d).
Proof.
  intros Lo [Rt Rr] It. pose proof Lo as (text & v & Rd & Ps & Ev). destruct (block_frame _ _ _ _ _ Ev) as (_ & Rq & _). cbn [s_ctx c_reqs] in Rq.
  assert (R : no_risk_requests true (St (s_ctx s1) [])).
  { unfold no_risk_requests. cbn [s_ctx]. rewrite Rq. intros n template asserts e M. apply (Rr n template). apply mget_some_in, mextend_in in M. now destruct M as [[]|M]. }
  unfold launch. rewrite Rd. unfold main_test, test_command. rewrite (setup_ok _ _ _ _ _ Ps Ev).
  assert (P : forall m l, match m with Starting js => Forall safe_job js | _ => True end -> safe_process (Process m [] true [] [] false (map (pair Main) l) d)) by (intros m l H; split; [constructor|exact H]).
  destruct name as [name|].
  - destruct (mget name (s_tests src)) as [body|] eqn:Mg.
    + apply mget_some_in in Mg. pose proof (Rt _ _ Mg) as B. destruct (maximun_of _ threads) as [m|e| |]; apply P; try exact I. now apply safe_named.
    + apply P. constructor.
  - apply P. apply safe_all; [|exact R]. intros n b I. apply (Rt n), It, I.
Qed.
Theorem risk_free_unhurt g iter w root name threads duration number record pod d src s1 p : loads w root src s1 -> risk_free src -> (forall x, In x (iter (s_tests src)) -> In x (s_tests src)) ->
  (forall id, steady (g_world g id)) -> goes (setting_in true g) (launch iter w root name threads duration number record pod d) p -> unhurt p.
Proof.
  intros Lo Rf It W G. assert (S : safe_process p).
  { remember (launch _ _ _ _ _ _ _ _ _ _) as p0 eqn:E0. induction G as [p|p p1 p2 G IH S]; [subst; eapply safe_launch; eassumption|]. eapply safe_step; [exact W|exact S|auto]. }
  destruct S as [S _]. eapply Forall_impl; [|exact S]. intros t (_ & _ & _ & _ & X). exact X.
Qed.

(** ** up to the report of the statistics, threads may have panicked *)
Definition cut_tester (t t' : tester) : Prop := te_phase t = Crashed /\ te_job t' = te_job t /\ te_path t' = te_path t /\ te_accept t' = te_accept t /\ exists rest, te_todo t' = te_todo t ++ rest.
Definition like_tester (t t' : tester) : Prop := built_tester t t' \/ cut_tester t t'.
Lemma since_starts w es s o s1 x : eval_block w es s = (o, s1) -> forall s2, s_trace s2 = s_trace s1 ++ x -> since s s2 = since s s1 ++ map Does x.
Proof.
  intros E s2 T. destruct (block_frame _ _ _ _ _ E) as (_ & _ & _ & tr & Tr). unfold since. rewrite T, Tr, <- app_assoc, !skipn_app, !skipn_all, Nat.sub_diag. cbn [app skipn]. apply map_app.
Qed.
Lemma iteration_like stat t t' : built_tester t t' -> like_tester (iteration stat t) (iteration stat t').
Proof.
  intros P. destruct (iteration_built stat _ _ P) as [B|C]; [now left|]. destruct P as (w & Ew & ->).
  destruct (builds_agree w (j_body (te_job t)) (te_state t)) as [Eq|(s1 & Pn & x & St)].
  - right. revert C. unfold iteration, rebuilt. cbn [te_job te_env te_path te_accept te_number te_state te_phase te_todo]. rewrite Ew, <- Eq. destruct (eval_block (in_build true w) _ (te_state t)) as [o s1].
    destruct o as [v|e| |], (j_limit (te_job t)); unfold ctx_records; cbn [te_phase]; try discriminate; intros _; split; try reflexivity; repeat (split; [reflexivity|]); exists []; now rewrite app_nil_r.
  - right. unfold iteration, rebuilt. cbn [te_job te_env te_path te_accept te_number te_state te_phase te_todo]. rewrite Ew, Pn. unfold cut_tester.
    destruct (eval_block (in_build false w) (j_body (te_job t)) (te_state t)) as [o s2]. cbn [snd] in St. pose proof (since_starts _ _ _ _ _ _ Pn _ St) as Si.
    destruct o as [v|e| |], (j_limit (te_job t)); unfold ctx_records; cbn [te_job te_env te_path te_accept te_number te_state te_phase te_todo]; repeat (split; [reflexivity|]); rewrite Si, <- ?app_assoc; eexists; reflexivity.
Qed.
Lemma move_like stat flag t t' a t1 : like_tester t t' -> tester_move stat flag t = Some (a, t1) ->
  te_job t' = te_job t /\ te_path t' = te_path t /\ te_accept t' = te_accept t /\ exists t1', tester_move stat flag t' = Some (a, t1') /\ like_tester t1 t1'.
Proof.
  intros [P|(Cr & J & Pa & Ac & rest & Td)] M.
  - pose proof P as (w & Ew & E). split; [now rewrite E|]. split; [now rewrite E|]. split; [now rewrite E|].
    pose proof (iteration_like stat _ _ P) as It. unfold tester_move in *. rewrite E in *. unfold rebuilt in *. cbn [te_job te_env te_path te_accept te_number te_state te_phase te_todo] in *.
    destruct (te_todo t) as [|x l].
    + destruct (te_phase t); try discriminate.
      * destruct (j_limit (te_job t)) as [m|]; [|discriminate]. injection M as <- <-. eexists. split; [reflexivity|]. left. exists w. split; [exact Ew|reflexivity].
      * injection M as <- <-. eexists. split; [reflexivity|exact It].
    + injection M as <- <-. eexists. split; [reflexivity|]. left. exists w. split; [exact Ew|reflexivity].
  - split; [exact J|]. split; [exact Pa|]. split; [exact Ac|]. unfold tester_move in *. rewrite Cr in M. destruct (te_todo t) as [|x l]; [discriminate|]. injection M as <- <-. rewrite Td. cbn [app].
    eexists. split; [reflexivity|]. right. unfold cut_tester. cbn [te_job te_env te_path te_accept te_number te_state te_phase te_todo]. rewrite Ac. repeat (split; [assumption || reflexivity|]). now exists rest.
Qed.
Record like_process (p p' : process) : Prop := {
  lp_main : p_main p' = p_main p;
  lp_testers : Forall2 like_tester (p_testers p) (p_testers p');
  lp_flag : p_flag p' = p_flag p;
  lp_queue : p_queue p' = p_queue p;
  lp_stats : p_stats p' = p_stats p;
  lp_reported : p_reported p' = p_reported p;
  lp_log : p_log p' = p_log p;
  lp_disk : p_disk p' = p_disk p
}.
Lemma step_early g p p1 : process_step g p p1 -> p_main p1 <> Gone true -> p_reported p1 = false -> p_main p <> Gone true /\ p_reported p = false.
Proof. destruct 1; cbn [p_main p_reported]; intros M R; split; try assumption; try discriminate; auto. Qed.
Lemma step_like g p p1 p' : like_process p p' -> process_step (setting_in true g) p p1 -> p_main p1 <> Gone true -> p_reported p1 = false ->
  exists p1', process_step (setting_in false g) p' p1' /\ like_process p1 p1'.
Proof.
  intros [M T F Q Q2 Rr L D] S U V. destruct p' as [m' ts' flag' q' st' r' l' d']. cbn in M, T, F, Q, Q2, Rr, L, D.
  destruct S; cbn in M, T, F, Q, Q2, Rr, L, D; subst.
  - eexists. split; [apply ps_start; assumption|]. split; cbn [p_main p_testers p_flag p_queue p_stats p_reported p_log p_disk]; auto. apply Forall2_app; auto. constructor; [left; apply new_built|constructor].
  - eexists. split; [eapply ps_no_file; eassumption|]. split; cbn; auto.
  - eexists. split; [apply ps_started|]. split; cbn; auto.
  - apply Forall2_app_inv_l in T. destruct T as (u1 & u2 & T1 & T2 & ->). inversion T2 as [|? t0 ? u2' Tt T3]; subst.
    match goal with H : tester_move _ _ _ = _ |- _ => destruct (move_like _ _ _ _ _ _ Tt H) as (J & Pa & Ac & t1' & Mv & Tn) end.
    eexists. split; [eapply ps_tester; [assumption|exact Mv]|]. split; cbn [p_main p_testers p_flag p_queue p_stats p_reported p_log p_disk]; auto; [apply Forall2_app; auto|now rewrite J|unfold disk_after; now rewrite Pa, Ac].
  - eexists. split; [apply ps_stop|]. split; cbn; auto.
  - eexists. split; [apply ps_receive; assumption|]. split; cbn; auto.
  - discriminate V.
  - now destruct U.
  - eexists. split; [apply ps_die|]. split; cbn; auto.
Qed.
Lemma goes_like g p p1 : goes (setting_in true g) p p1 -> p_main p1 <> Gone true -> p_reported p1 = false -> forall p', like_process p p' -> exists p1', goes (setting_in false g) p' p1' /\ like_process p1 p1'.
Proof.
  induction 1 as [p|p p1 p2 G IH S]; intros U V p' P; [exists p'; split; [constructor|exact P]|]. destruct (step_early _ _ _ S U V) as [U1 V1].
  destruct (IH U1 V1 _ P) as (p1' & G' & P1). destruct (step_like _ _ _ _ P1 S U V) as (p2' & S' & P2). exists p2'. split; [eapply go_step; eassumption|exact P2].
Qed.
Theorem built_until g iter w root name threads duration number record pod d src s1 p : loads (in_build true w) root src s1 ->
  goes (setting_in true g) (launch iter (in_build true w) root name threads duration number record pod d) p -> p_main p <> Gone true -> p_reported p = false ->
  exists p', goes (setting_in false g) (launch iter (in_build false w) root name threads duration number record pod d) p' /\
    p_main p' = p_main p /\ p_flag p' = p_flag p /\ p_log p' = p_log p /\ p_disk p' = p_disk p.
Proof.
  intros L G U V. rewrite (launch_built _ _ _ _ _ _ _ _ _ _ _ _ L).
  assert (P : forall q, p_testers q = [] -> like_process q q) by (intros q E; split; auto; rewrite E; constructor).
  destruct (goes_like g _ _ G U V _ (P _ (launch_fresh _ _ _ _ _ _ _ _ _ _))) as (p' & G' & [M T F Q Q2 Rr Lg D]). exists p'. auto.
Qed.
