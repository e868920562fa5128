(** The command when output is refused or a signal comes *)
From Verif Require Import SpecOutage TestProofs TextProofs ValueProofs EvaluatorTop RunProofs RunTop RunMore SendProofs ProcessProofs ProcessRun ProcessTop ProcessEnds ProcessOnce ProcessLaunch OutageProofs.
From Coq Require Import Permutation Lia.
Open Scope N_scope.

(** ** the threads of a named test *)
Lemma ids_nodup g js0 l0 d0 p : NoDup (map j_thread js0) -> sound g js0 l0 d0 p -> NoDup (ids (p_testers p)).
Proof.
  intros ND [(rest & J & _) _ _ _ _ _ _]. rewrite J, map_app, map_map in ND. unfold ids. revert ND. generalize (map j_thread rest) as k. clear. intros k. induction (p_testers p) as [|t ts IH]; cbn; [constructor|]. intros ND. apply NoDup_cons_iff in ND. destruct ND as [NI ND]. constructor; auto. intros I. apply NI, in_or_app. now left.
Qed.
Lemma same_id ts t t2 : NoDup (ids ts) -> In t ts -> In t2 ts -> j_thread (te_job t) = j_thread (te_job t2) -> t = t2.
Proof.
  induction ts as [|x ts IH]; [contradiction|]. intros ND. apply NoDup_cons_iff in ND. destruct ND as [NI ND].
  intros [<- |I] [<- |I2] E; auto; exfalso; apply NI; [rewrite E|rewrite <- E]; now apply (in_map (fun x => j_thread (te_job x))).
Qed.
Section Named.
Variables (g : setting) (pod : option str) (c : ctx) (name : str) (body : list expr) (m threads : N) (l0 : list event) (d0 : amap bytes).
Local Notation js0 := (named_jobs pod c name body m 0 (N.to_nat threads)).
Local Notation start := (begin js0 l0 d0).
Local Notation files := (fresh_file g pod).

Lemma named_nodup p : goes g start p -> NoDup (ids (p_testers p)).
Proof. intros H. eapply ids_nodup; [|exact (sound_named _ _ _ _ _ _ _ _ _ _ H)]. apply named_distinct. Qed.
Lemma cut d t th bs a own x r : pictured g name body m d t th -> te_todo t = Does (Printed x) :: r -> own ++ pend (te_todo t) = s_trace (te_state t) ->
  stands name body c files th bs a -> a <= m ->
  cut_short (te_env t) body c m bs own /\
  seen d t = option_map (fun f => write_batches f (numbered name (j_thread (te_job t)) bs)) (files (j_thread (te_job t))).
Proof.
  intros (I & E & X) TD OW ST A. rewrite TD in *. destruct X as (X1 & th' & dn & evs & b & sent & MV & TO & TR & SE & FI).
  assert (PE : pend (Does (Printed x) :: r) = evs) by (rewrite TO, !pend_app, pend_do; destruct b, sent; apply app_nil_r).
  rewrite PE, TR, app_assoc in OW. apply app_inv_tail in OW. subst own.
  pose proof ST as (s & IT & FF & PH). rewrite X1 in PH. destruct PH as [PH ->]. pose proof (iterated_length _ _ _ _ _ _ IT) as Le.
  destruct SE as (S1 & S2 & S3 & S4).
  destruct (moved_trace _ _ _ _ _ _ _ _ X1 MV) as (o & s2 & EV & Q). rewrite S3, TR in Q.
  assert (Fi : evs <> []) by (rewrite <- PE; discriminate). split.
  - rewrite PH in EV. exists s, o, s2, x, (pend r). rewrite <- Le, <- E. split; auto. split; [lia|]. split; auto. rewrite PH. split; [apply starts_more|].
    rewrite <- Q, PH, <- PE. rewrite app_assoc. reflexivity.
  - rewrite <- (FI (or_introl Fi)), FF, I. reflexivity.
Qed.
Theorem process_tail p dead : goes g start p -> p_main p = Joining \/ p_main p = Gone true -> Forall (stilled dead) (p_testers p) -> stopped_at dead p ->
  exists bss, length bss = N.to_nat threads /\
  (forall id bs, nth_error bss (N.to_nat id) = Some bs ->
    (In id dead -> cut_short (g_world g id) body c m bs (events_of (Tester id) (p_log p))) /\
    (~ In id dead -> done_with (g_world g id) body c m (negb (p_flag p)) bs (events_of (Tester id) (p_log p))) /\
    forall q, pod = Some q -> mget (record_path g q id) (p_disk p) = Some (recorded g (record_path g q id) name id bs)) /\
  (g_stat g = true -> p_queue p = [] -> (forall ks, Permutation (g_order g ks) ks) -> stat_report (flat_map samples (List.concat bss)) (show_stats (g_order g) (p_stats p))).
Proof.
  intros H G AG SA. pose proof (named_nodup _ H) as ND.
  destruct (process_refines _ _ _ _ _ _ _ _ _ _ H) as (r & E & ths & rest & RT & F & TO & RF & RQ & RS & RP).
  assert (rest = []) as -> by (unfold tail_ok in TO; destruct G as [G|G]; rewrite G in TO; exact TO). rewrite app_nil_r in RT.
  destruct (inv_reach _ _ _ _ _ _ _ _ _ _ E) as (CR & bss & rc & GD & PE & ST & PR). exists bss.
  pose proof (crew_length _ _ _ CR) as CL.
  assert (LL : length bss = length (run_threads r)) by (clear -GD; induction GD; cbn; auto).
  split; [lia|]. split.
  - intros id bs NB. assert (exists th, nth_error (run_threads r) (N.to_nat id) = Some th /\ good name body c files m (run_flag r) th bs) as (th & NT & GT).
    { clear -GD NB. revert NB. generalize (N.to_nat id) as i. induction GD as [|x y l k Q F IH]; intros [|i] NB; try discriminate; [injection NB as <-; exists x; split; [reflexivity|exact Q]|]. apply IH. exact NB. }
    assert (exists t, In t (p_testers p) /\ pictured g name body m (p_disk p) t th) as (t & It & PT).
    { apply nth_error_In in NT. rewrite RT in NT. destruct (Forall2_in_r _ _ _ _ F NT) as (t & A & B). eauto. }
    assert (ID : th_id th = id).
    { destruct CR as [C1 _]. assert (Q : nth_error (map th_id (run_threads r)) (N.to_nat id) = Some (th_id th)) by now rewrite nth_error_map, NT.
      assert (L : (N.to_nat id < N.to_nat threads)%nat) by (rewrite <- CL, Nat2N.id; apply nth_error_Some; congruence).
      rewrite C1, nth_error_map, (nth_error_nth' _ 0%nat) in Q by (rewrite seq_length; lia). rewrite seq_nth in Q by lia. cbn in Q. injection Q as <-. lia. }
    pose proof PT as (I1 & I2 & _). rewrite <- ID, I1. destruct (own_pend _ _ _ _ _ _ _ _ _ _ _ H It) as (OW & EN & TP). rewrite Forall_forall in AG. pose proof (AG _ It) as Gt.
    destruct GT as (a & S & A & Z). rewrite RF in Z. rewrite <- EN.
    destruct (in_dec N.eq_dec (j_thread (te_job t)) dead) as [D|D].
    + unfold stopped_at in SA. rewrite Forall_forall in SA. destruct (SA _ D) as (t2 & x & r2 & It2 & E2 & T2). assert (t2 = t) as -> by (eapply same_id; eauto).
      destruct (cut _ _ _ _ _ _ _ _ PT T2 OW S A) as [CU SE]. split; auto. split; [contradiction|]. intros q Q. eapply seen_file; eauto.
    + destruct Gt as [Gt|Gt]; [|contradiction]. assert (T : te_todo t = []) by (unfold gone in Gt; destruct (te_todo t); [reflexivity|discriminate]). rewrite T in OW. cbn [pend flat_map] in OW. rewrite app_nil_r in OW.
      destruct (resting _ _ _ _ _ _ _ _ _ _ _ _ (negb (p_flag p)) PT T OW S A) as (_ & DW & SE); [intros N; apply Z; now destruct (p_flag p)|].
      split; [contradiction|]. split; auto. intros q Q. eapply seen_file; eauto.
  - intros GS Q O. rewrite GS, RQ, Q, app_nil_r in PE. rewrite <- RS, ST. eapply report_perm; [|apply show_gather; auto]. apply Permutation_flat_map. now apply Permutation_sym.
Qed.
End Named.

(** ** the threads when every test runs once *)
Section All.
Variables (g : setting) (pod : option str) (c : ctx) (tests : list (str * list expr)) (l0 : list event) (d0 : amap bytes).
Hypothesis few : N.of_nat (length tests) <= 2 ^ 32.
Local Notation js0 := (all_jobs pod c 0 tests).
Local Notation start := (begin js0 l0 d0).

Lemma all_nodup p : goes g start p -> NoDup (ids (p_testers p)).
Proof. intros H. eapply ids_nodup; [|exact (sound_all _ _ _ _ _ _ few _ H)]. now apply all_distinct. Qed.
Lemma no_report order : show_stats order [] = [].
Proof. unfold show_stats. generalize (order (map fst (@nil (str * stat)))) as ks. induction ks; cbn; auto. Qed.
Theorem once_tail p dead id name body : goes g start p -> p_main p = Joining \/ p_main p = Gone true -> Forall (stilled dead) (p_testers p) -> stopped_at dead p ->
  nth_error tests (N.to_nat id) = Some (name, body) ->
  exists o s2, eval_block (g_world g id) body (St (Ctx (c_vars c) (c_reqs c) []) []) = (o, s2) /\
  let own := events_of (Tester id) (p_log p) in let whole := s_trace s2 ++ afterwards_once (g_world g id) o s2 in
  (~ In id dead -> own = whole /\ o <> Diverge) /\
  (In id dead -> exists x rest, whole = own ++ Printed x :: rest) /\
  forall q, pod = Some q -> let path := record_path g q id in
    (In id dead \/ o = Panic -> mget path (p_disk p) = Some (recorded g path name id [])) /\
    (~ In id dead -> o <> Panic -> mget path (p_disk p) = Some (recorded g path name id [c_recs (s_ctx s2)])).
Proof.
  intros H J AG SA N. pose proof (all_nodup _ H) as ND. destruct (eval_block (g_world g id) body (St (Ctx (c_vars c) (c_reqs c) []) [])) as [o s2] eqn:EV. exists o, s2. split; auto. cbv zeta.
  destruct (tester_at _ _ _ _ _ _ few _ _ _ H N) as [(t & I & <-)|(NI & G & G2)]; [|exfalso; tauto].
  pose proof (own_once _ _ _ _ _ _ few _ _ H I) as OW. destruct (all_once _ _ _ _ _ _ few _ H _ I) as (OJ & EN & NT). rewrite NT in N. injection N as <- <-.
  destruct (once_goes _ _ _ _ _ _ few _ H) as [F _]. rewrite Forall_forall in F. pose proof (F _ I) as W. rewrite Forall_forall in AG. pose proof (AG _ I) as Gt.
  assert (DD : In (j_thread (te_job t)) dead -> exists x r, te_todo t = Does (Printed x) :: r).
  { intros D. unfold stopped_at in SA. rewrite Forall_forall in SA. destruct (SA _ D) as (t2 & x & r2 & It2 & E2 & T2). assert (t2 = t) as -> by (eapply same_id; eauto). eauto. }
  destruct W as [(P & T & S & SE)|(o' & s2' & evs & b & EV' & P & TR & T & BP & B)].
  - exfalso. destruct Gt as [Gt|Gt]; [unfold gone in Gt; rewrite T, P in Gt; discriminate|]. destruct (DD Gt) as (x & r & Q). congruence.
  - rewrite EN in EV'. unfold first_state in EV'. rewrite EV in EV'. injection EV' as <- <-. rewrite EN in TR. rewrite TR, T, pend_app, pend_do in OW.
    assert (PB : pend (store b) = []) by now destruct b. rewrite PB, app_nil_r in OW. rewrite <- OW.
    assert (ND' : ~ In (j_thread (te_job t)) dead -> evs = [] /\ b = None /\ o <> Diverge).
    { intros D. destruct Gt as [Gt|Gt]; [|contradiction]. unfold gone in Gt. rewrite T, P in Gt. destruct evs; [|discriminate]. destruct b; [discriminate|]. cbn in Gt. repeat split; auto. intros ->. discriminate. }
    assert (YD : In (j_thread (te_job t)) dead -> exists x r, evs = Printed x :: r).
    { intros D. destruct (DD D) as (x & r & Q). rewrite T in Q. destruct evs as [|e evs]; [destruct b; discriminate|]. injection Q as -> _. eauto. }
    split; [intros D; destruct (ND' D) as (-> & _ & Q); rewrite app_nil_r; auto|]. split; [intros D; destruct (YD D) as (x & r & ->); eauto|].
    intros q Q. destruct OJ as [_ TP]. rewrite Q in TP. cbn [option_map] in TP. split.
    + intros X. assert (SE : seen (p_disk p) t = option_map (fun f => write_batches f []) (fresh_file g pod (j_thread (te_job t)))).
      { destruct b as [b|]; [destruct B as (_ & _ & ->); now destruct (fresh_file g pod (j_thread (te_job t)))|]. destruct B as [B BE]. assert (CO : completes o = false).
        { destruct X as [D| ->]; [|reflexivity]. destruct (completes o); auto. destruct (YD D) as (x & r & ->). rewrite TP in BE. specialize (BE eq_refl ltac:(discriminate)). discriminate. }
        now rewrite CO in B. }
      exact (seen_once _ _ _ _ _ _ few _ _ _ [] H I Q SE).
    + intros D NP. destruct (ND' D) as (-> & -> & NV). destruct B as [B _]. assert (CO : completes o = true) by (destruct o; congruence || reflexivity). rewrite CO in B.
      exact (seen_once _ _ _ _ _ _ few _ _ _ _ H I Q B).
Qed.
End All.
