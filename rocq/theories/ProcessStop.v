(** What happens after the interrupt or the end of the duration *)
From Verif Require Import SpecProcess TestProofs TextProofs ValueProofs EvaluatorTop RunProofs RunTop RunMore SendProofs ProcessProofs ProcessRun ProcessTop ProcessEnds ProcessOnce ProcessLaunch.
From Coq Require Import Permutation Lia.
Open Scope N_scope.

Lemma iteration_trace stat t m o s2 : j_limit (te_job t) = Some m -> eval_block (te_env t) (j_body (te_job t)) (te_state t) = (o, s2) ->
  s_trace (te_state (iteration stat t)) = s_trace s2 ++ afterwards (te_env t) o s2.
Proof. intros J E. unfold iteration. rewrite E, J. destruct o; cbn; auto; now rewrite app_nil_r. Qed.

(** what a thread will have done if it starts no further iteration *)
Definition total (stat : bool) (t : tester) : list event :=
  s_trace (te_state (match te_phase t with InBody => iteration stat t | _ => t end)).
Lemma total_again stat j w pa ac ac' n s ph td td' : total stat (Test j w pa ac n s ph td) = total stat (Test j w pa ac' n s ph td').
Proof. unfold total. cbn [te_phase]. destruct ph; auto. unfold iteration. cbn [te_env te_job te_state]. destruct (eval_block w (j_body j) s) as [[?|?| |] ?], (j_limit j); reflexivity. Qed.
Lemma move_total stat t a t' : tester_move stat false t = Some (a, t') -> total stat t' = total stat t.
Proof.
  destruct t as [j w pa ac n s ph td]. unfold tester_move. cbn [te_todo te_phase te_job te_env te_path te_accept te_number te_state]. destruct td as [|x r].
  - destruct ph; try discriminate.
    + destruct (j_limit j); [|discriminate]. intros [= <- <-]. reflexivity.
    + intros [= <- <-]. unfold total at 1. destruct (iteration_phase stat (Test j w pa ac n s InBody [])) as [N _].
      destruct (te_phase (iteration stat (Test j w pa ac n s InBody []))) eqn:P; try reflexivity. congruence.
  - intros [= <- <-]. apply total_again.
Qed.
Lemma total_ahead stat t own : own ++ pend (te_todo t) = s_trace (te_state t) -> starts_with own (total stat t).
Proof.
  intros O. apply (starts_trans _ (s_trace (te_state t))); [rewrite <- O; apply starts_more|]. unfold total. destruct (te_phase t); try apply starts_refl.
  rewrite iteration_pend. apply starts_more.
Qed.
Lemma total_reached stat t own : own ++ pend (te_todo t) = s_trace (te_state t) -> gone t = true -> own = total stat t.
Proof.
  unfold gone, total. intros O G. destruct (te_todo t); [|discriminate]. cbn [pend flat_map] in O. rewrite app_nil_r in O. destruct (te_phase t); congruence.
Qed.
Lemma stays_stopped g p p' : goes g p p' -> p_flag p = false -> p_flag p' = false /\
  forall t, In t (p_testers p) -> exists t', In t' (p_testers p') /\ te_job t' = te_job t /\ total (g_stat g) t' = total (g_stat g) t.
Proof.
  intros H F. induction H as [|p p1 p2 H IH S]; [split; eauto|]. destruct (IH F) as [F1 I1]. clear IH.
  destruct S as [j js ts flag q mm r l d C|j js ts flag q mm r l d pa E C|ts flag q mm r l d|mp ts1 t ts2 flag q mm r l d a t' R MV|ts flag q mm r l d|ts flag rs q mm l d G|ts flag mm l d G A|ts flag q mm r l d A R|ts flag q mm r l d];
    cbn [p_flag p_testers] in *; split; auto.
  - intros t I. destruct (I1 _ I) as (t1 & A & B). exists t1. split; auto. apply in_or_app. now left.
  - subst flag. intros x I. destruct (I1 _ I) as (x1 & A & B & D). apply in_app_or in A. destruct A as [A|[<-|A]].
    + exists x1. split; auto. apply in_or_app. now left.
    + exists t'. split; [apply in_or_app; right; now left|]. destruct (move_ends _ _ _ _ _ MV) as (E1 & _). rewrite (move_total _ _ _ _ MV). split; congruence.
    + exists x1. split; auto. apply in_or_app. right. now right.
Qed.

Section Named.
Variables (g : setting) (pod : option str) (c : ctx) (name : str) (body : list expr) (m threads : N) (l0 : list event) (d0 : amap bytes).
Local Notation js0 := (named_jobs pod c name body m 0 (N.to_nat threads)).
Local Notation start := (begin js0 l0 d0).

Lemma stopped_late p : goes g start p -> p_flag p = false -> p_main p = Joining \/ p_main p = Gone true.
Proof.
  remember start as b eqn:B. intros H. induction H as [|p p1 p2 H IH S]; subst; [discriminate|]. specialize (IH eq_refl).
  destruct S; cbn [p_flag p_main] in *; auto; intros F; destruct (IH F) as [Q|Q]; try discriminate; auto.
Qed.
Theorem after_stop p id : goes g start p -> id < threads -> p_flag p = false ->
  let own q := events_of (Tester id) (p_log q) in
  exists bs s whole, iterated (g_world g id) body c (N.of_nat (length bs)) s bs /\ N.of_nat (length bs) <= m /\
    (own p = s_trace s /\ whole = own p \/
     N.of_nat (length bs) < m /\ exists o s2, eval_block (g_world g id) body s = (o, s2) /\ starts_with (s_trace s) (own p) /\ whole = s_trace s2 ++ afterwards (g_world g id) o s2) /\
    forall p', goes g p p' -> starts_with (own p') whole /\ (p_main p' = Gone true -> own p' = whole).
Proof.
  intros H L F own. destruct (tester_of _ _ _ _ _ _ _ _ _ _ _ H L) as [(t & I & TI)|(_ & N1 & N2)]; [|destruct (stopped_late _ H F); contradiction].
  destruct (own_pend _ _ _ _ _ _ _ _ _ _ _ H I) as (OW & EN & _). destruct (thread_facts _ _ _ _ _ _ _ _ _ _ H _ I) as (th & bs & a & P & ST & A & _).
  destruct (named_limit _ _ _ _ _ _ _ _ _ _ H _ I) as [(_ & JB & JL) _].
  rewrite TI in OW, EN. fold (own p) in OW.
  assert (Later : forall p', goes g p p' -> starts_with (own p') (total (g_stat g) t) /\ (p_main p' = Gone true -> own p' = total (g_stat g) t)).
  { intros p' H'. destruct (stays_stopped _ _ _ H' F) as [_ Q]. destruct (Q _ I) as (t' & I' & J' & T'). pose proof (goes_trans _ _ _ _ H H') as H2.
    destruct (own_pend _ _ _ _ _ _ _ _ _ _ _ H2 I') as (OW' & _). rewrite J', TI in OW'. fold (own p') in OW'. rewrite <- T'. split; [now apply total_ahead|].
    intros G. apply total_reached; auto. destruct (exit_from _ _ _ H2) as [AG _]; [discriminate|exact G|]. rewrite Forall_forall in AG. auto. }
  exists bs. pose proof ST as (s & IT & _ & PH). destruct P as (PI & PE & X). rewrite PE, EN in *.
  pose proof (iterated_length _ _ _ _ _ _ IT) as LB. exists s, (total (g_stat g) t). rewrite <- LB. split; auto.
  destruct (te_todo t) as [|x r] eqn:T.
  - destruct X as (X1 & X2 & X3 & _). cbn [pend flat_map] in OW. rewrite app_nil_r in OW. rewrite X1, X3 in PH. unfold total in *. destruct (te_phase t) eqn:PT.
    + destruct PH as [<- ->]. split; [lia|]. split; auto.
    + destruct PH as [<- ->]. split; [lia|]. split; auto. right. split; [lia|]. rewrite <- JB, <- EN. destruct (eval_block (te_env t) (j_body (te_job t)) (te_state t)) as [o s2] eqn:E. exists o, s2. split; auto.
      rewrite OW. split; [apply starts_refl|]. eapply iteration_trace; eauto.
    + destruct PH as [[<- ->]|(e & s2 & EV & -> & Q)]; (split; [lia|]); (split; auto). right. split; [lia|]. exists (Err e), s2. split; auto. rewrite OW, Q. cbn [s_trace afterwards complaint]. split; auto.
      eapply starts_trans; [eapply block_prefix; eauto|apply starts_more].
    + destruct PH as [EV ->]. split; [lia|]. split; auto. right. split; [lia|]. exists Panic, (te_state t). split; auto. cbn [afterwards]. rewrite OW, app_nil_r. split; auto. eapply block_prefix; eauto.
    + destruct PH as [EV ->]. split; [lia|]. split; auto. right. split; [lia|]. exists Diverge, (te_state t). split; auto. cbn [afterwards]. rewrite OW, app_nil_r. split; auto. eapply block_prefix; eauto.
  - destruct X as (X1 & th' & dn & evs & b & sent & MV & TO & TR & (S1 & S2 & S3 & S4) & _). rewrite X1 in PH. destruct PH as [PH ->]. split; [lia|]. split; auto. right. split; [lia|].
    assert (PE' : pend (x :: r) = evs) by (rewrite TO, !pend_app, pend_do; destruct b, sent; apply app_nil_r).
    destruct (moved_trace _ _ _ _ _ _ _ _ X1 MV) as (o & s2 & EV & Q). rewrite PE in EV, Q. rewrite PH in EV. exists o, s2. split; auto.
    assert (NB : te_phase t <> InBody).
    { rewrite <- S1. unfold thread_move in MV. rewrite X1 in MV. destruct (eval_block (th_env th) body (th_state th)) as [[?|?| |] ?]; [unfold ctx_records in MV|..]; injection MV as <- _; discriminate. }
    assert (W : total (g_stat g) t = s_trace (te_state t)) by (unfold total; destruct (te_phase t); congruence).
    rewrite W. rewrite S3 in Q. split; auto.
    rewrite PE', TR, app_assoc in OW. apply app_inv_tail in OW. rewrite OW, <- PH. apply starts_more.
Qed.
End Named.

Theorem named_stop iter w root name threads duration number record pod d g src s1 body p id :
  loads w root src s1 -> mget name (s_tests src) = Some body -> threads <> 0 -> id < threads ->
  goes g (launch iter w root (Some name) threads duration number record pod d) p -> p_flag p = false ->
  let own q := events_of (Tester id) (p_log q) in let w' := g_world g id in let m := share duration number threads in
  exists bs s whole, iterated w' body (s_ctx s1) (N.of_nat (length bs)) s bs /\ N.of_nat (length bs) <= m /\
    (own p = s_trace s /\ whole = own p \/
     N.of_nat (length bs) < m /\ exists o s2, eval_block w' body s = (o, s2) /\ starts_with (s_trace s) (own p) /\ whole = s_trace s2 ++ afterwards w' o s2) /\
    forall p', goes g p p' -> starts_with (own p') whole /\ (p_main p' = Gone true -> own p' = whole).
Proof.
  intros L M Z B H F. rewrite (launch_named _ _ _ _ _ _ _ _ _ _ _ _ _ L M) in H. apply N.eqb_neq in Z. rewrite Z in H. cbv zeta. exact (after_stop _ _ _ _ _ _ _ _ _ _ _ H B F).
Qed.

(** ** the files when every test runs once *)
Theorem all_files iter w root threads duration number pod d g src s1 p id name body :
  loads w root src s1 -> N.of_nat (length (iter (s_tests src))) <= 2 ^ 32 -> nth_error (iter (s_tests src)) (N.to_nat id) = Some (name, body) ->
  goes g (launch iter w root None threads duration number true pod d) p ->
  exists o s2, eval_block (g_world g id) body (St (Ctx (c_vars (s_ctx s1)) (c_reqs (s_ctx s1)) []) []) = (o, s2) /\
  let path := record_path g pod id in let now := mget path (p_disk p) in
  (now = mget path d \/ now = Some (recorded g path name id []) \/ now = Some (recorded g path name id [c_recs (s_ctx s2)])) /\
  (p_main p = Gone true -> now = Some (recorded g path name id (match o with Panic => [] | _ => [c_recs (s_ctx s2)] end))).
Proof.
  intros L F N H. destruct (all_threads _ _ _ _ _ _ _ _ _ _ _ _ _ _ _ _ L F N H) as (o & s2 & E & _ & G & A). exists o, s2. split; auto. cbv zeta.
  destruct (A eq_refl) as [(_ & Q & X)|[(Q & X)|(_ & NP & ND & Q)]]; rewrite Q; (split; [auto|]); intros K.
  - contradiction.
  - now rewrite (X K).
  - destruct o; congruence.
Qed.
