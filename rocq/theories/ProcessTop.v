(** What the process of a named test has done, at any time and in the end *)
From Verif Require Import SpecProcess TestProofs TextProofs ValueProofs EvaluatorTop RunProofs RunTop RunMore SendProofs ProcessProofs ProcessRun.
From Coq Require Import Permutation Lia.
Open Scope N_scope.

Lemma launch_named iter w root name threads duration number record pod d src s1 body : loads w root src s1 -> mget name (s_tests src) = Some body ->
  launch iter w root (Some name) threads duration number record pod d =
  if threads =? 0 then Process (Gone false) [] true [] [] false (map (pair Main) (s_trace s1)) d
  else begin (named_jobs (if record then Some pod else None) (s_ctx s1) name body (share duration number threads) 0 (N.to_nat threads)) (s_trace s1) d.
Proof.
  intros (text & v & R & P & E) M. unfold launch, main_test, test_command. rewrite R, (setup_ok _ _ _ _ _ P E), M. unfold maximun_of. destruct (threads =? 0); [reflexivity|].
  unfold begin, share. now destruct duration.
Qed.
(** nothing happens after the end *)
Lemma over_stays g p p' b : goes g p p' -> p_main p = Gone b -> p' = p.
Proof. intros H. induction H as [|p p1 p2 H IH S]; intros M; auto. rewrite (IH M) in S. destruct S; cbn in M; try discriminate. subst. discriminate. Qed.
Lemma end_steps g p : (exists b, p_main p = Gone b) -> forall p', ~ process_step g p p'.
Proof. intros (b & M) p' S. destruct S; cbn in M; try discriminate. subst. discriminate. Qed.
Lemma exit_from g p p' : goes g p p' -> p_main p <> Gone true -> p_main p' = Gone true -> Forall (fun t => gone t = true) (p_testers p') /\ p_reported p' = g_stat g.
Proof.
  intros H. induction H as [|p p1 p2 H IH S]; intros N M; [contradiction|].
  destruct S as [j js ts flag q mm r l d C|j js ts flag q mm r l d pa E C|ts flag q mm r l d|mp ts1 t ts2 flag q mm r l d a t' R MV|ts flag q mm r l d|ts flag rs q mm l d G|ts flag mm l d G A|ts flag q mm r l d A R|ts flag q mm r l d]; cbn in M; try discriminate.
  - subst. discriminate.
  - split; auto.
Qed.

(** ** the statistics *)
Definition last_word (g : setting) (p : process) : Prop :=
  if p_reported p then g_stat g = true /\ p_main p <> Aborting /\ (exists l, p_log p = l ++ [(Collector, Printed (show_stats (g_order g) (p_stats p)))] /\ events_of Collector l = []) /\
      Forall (fun t => gone t = true) (p_testers p) /\ p_queue p = []
  else events_of Collector (p_log p) = [].
Lemma collector_main l : events_of Collector (map (pair Main) l) = [].
Proof. induction l as [|e l IH]; [reflexivity|]. exact IH. Qed.
Lemma gone_still stat flag t : gone t = true -> tester_move stat flag t = None.
Proof. unfold gone, tester_move. destruct (te_todo t); [|discriminate]. now destruct (te_phase t). Qed.
Lemma last_word_step g p p' : (forall t, In t (p_testers p) -> j_limit (te_job t) <> None) -> (p_reported p = true -> p_main p = Joining \/ p_main p = Gone true) -> last_word g p -> process_step g p p' ->
  last_word g p' /\ (p_reported p' = true -> p_main p' = Joining \/ p_main p' = Gone true).
Proof.
  intros NL J L S.
  destruct S as [j js ts flag q mm r l d C|j js ts flag q mm r l d pa E C|ts flag q mm r l d|mp ts1 t ts2 flag q mm r l d a t' R MV|ts flag q mm r l d|ts flag rs q mm l d G|ts flag mm l d G A|ts flag q mm r l d A R|ts flag q mm r l d];
    unfold last_word in *; cbn [p_main p_testers p_log p_disk p_flag p_queue p_stats p_reported] in *.
  - destruct r; [destruct (J eq_refl); discriminate|]. split; [exact L|discriminate].
  - destruct r; [destruct (J eq_refl); discriminate|]. split; auto. discriminate.
  - destruct r; [destruct (J eq_refl); discriminate|]. split; [exact L|discriminate].
  - destruct r.
    + destruct L as (_ & _ & _ & F & _). apply Forall_elt in F. rewrite gone_still in MV by auto. discriminate.
    + split; [|discriminate]. destruct a as [[e|b|rs]|]; auto. rewrite events_app, L. apply events_other. discriminate.
  - split; auto.
  - split; auto.
  - split; [|auto]. split; auto. split; [discriminate|]. split; [exists l; auto|]. split; auto. rewrite Forall_forall in *. intros t I. destruct (A _ I) as [Z|Z]; auto. exfalso. exact (NL _ I Z).
  - split; auto. destruct r; auto. destruct L as (L1 & _ & L2). split; auto. split; auto. discriminate.
  - destruct r; [destruct (J eq_refl); discriminate|]. split; auto. discriminate.
Qed.

Section Named.
Variables (g : setting) (pod : option str) (c : ctx) (name : str) (body : list expr) (m threads : N) (l0 : list event) (d0 : amap bytes).
Local Notation js0 := (named_jobs pod c name body m 0 (N.to_nat threads)).
Local Notation start := (begin js0 l0 d0).
Local Notation files := (fresh_file g pod).

Lemma named_limit p : goes g start p -> forall t, In t (p_testers p) -> ours name body m (te_job t) /\ j_thread (te_job t) < threads.
Proof.
  intros H t I. apply sound_named in H. destruct H as [(rest & J & _) _ _ _ _ _ _].
  assert (IJ : In (te_job t) js0) by (rewrite J; apply in_or_app; left; now apply in_map).
  destruct (named_shape pod c name body m threads _ IJ) as (A & B & C & _). split; [repeat split; auto|].
  destruct (named_jobs_shape pod c name body m (N.to_nat threads) 0) as [T _]. cbv zeta in T. apply (in_map j_thread) in IJ. rewrite T in IJ. apply in_map_iff in IJ. destruct IJ as (i & <- & IJ). apply in_seq in IJ. lia.
Qed.
Lemma named_last p : goes g start p -> last_word g p /\ (p_reported p = true -> p_main p = Joining \/ p_main p = Gone true).
Proof.
  remember start as b eqn:B. intros H. induction H as [|p p1 p2 H IH S]; subst.
  - split; [|discriminate]. unfold last_word. cbn. apply collector_main.
  - destruct (IH eq_refl) as [L J]. eapply last_word_step; eauto. intros t I. destruct (named_limit _ H _ I) as [(_ & _ & Q) _]. congruence.
Qed.
Lemma events_none p id : goes g start p -> threads <= id -> events_of (Tester id) (p_log p) = [].
Proof.
  intros H L. apply (so_none _ _ _ _ _ (sound_named _ _ _ _ _ _ _ _ _ _ H)). intros I. unfold ids in I. apply in_map_iff in I. destruct I as (t & <- & I).
  destruct (named_limit _ H _ I). lia.
Qed.

(** what the thread simulating a test thread tells of it *)
Lemma block_prefix w es s o s2 : eval_block w es s = (o, s2) -> starts_with (s_trace s) (s_trace s2).
Proof. intros H. destruct (block_frame _ _ _ _ _ H) as (_ & _ & _ & tr & T). exists tr. exact T. Qed.
Lemma starts_refl {A} (l : list A) : starts_with l l.
Proof. exists []. now rewrite app_nil_r. Qed.
Lemma starts_trans {A} (a b c' : list A) : starts_with a b -> starts_with b c' -> starts_with a c'.
Proof. intros [x ->] [y ->]. exists (x ++ y). now rewrite app_assoc. Qed.
Lemma starts_more {A} (a b : list A) : starts_with a (a ++ b).
Proof. now exists b. Qed.
Lemma resting d t th bs a own stopped : pictured g name body m d t th -> te_todo t = [] -> own = s_trace (te_state t) ->
  stands name body c files th bs a -> a <= m -> (stopped = false -> th_phase th = Finished -> a = m \/ a = th_number th + 1) ->
  under_way (te_env t) body c m bs own /\ (gone t = true -> done_with (te_env t) body c m stopped bs own) /\
  seen d t = option_map (fun f => write_batches f (numbered name (j_thread (te_job t)) bs)) (files (j_thread (te_job t))).
Proof.
  intros (I & E & X) T -> (s & IT & FF & ST) A Z. rewrite T in X. destruct X as (X1 & X2 & X3 & X4). pose proof (iterated_length _ _ _ _ _ _ IT) as L. rewrite X2 in L. rewrite E, X2, L in IT. rewrite I in FF. rewrite X4 in FF.
  split; [|split; [|exact FF]].
  - exists s. split; auto. rewrite X1 in ST. rewrite E, X2, X3 in ST.
    assert (Fail : forall o s2, eval_block (te_env t) body s = (o, s2) -> a = te_number t + 1 -> s_trace (te_state t) = s_trace s2 ++ afterwards (te_env t) o s2 ->
      N.of_nat (length bs) <= m /\ (s_trace (te_state t) = s_trace s \/ N.of_nat (length bs) < m /\ exists o s2, eval_block (te_env t) body s = (o, s2) /\ starts_with (s_trace s) (s_trace (te_state t)) /\ starts_with (s_trace (te_state t)) (s_trace s2 ++ afterwards (te_env t) o s2))).
    { intros o s2 EV -> Q. split; [lia|]. right. split; [lia|]. exists o, s2. split; auto. rewrite Q. split; [|apply starts_refl]. eapply starts_trans; [eapply block_prefix; eauto|apply starts_more]. }
    destruct (te_phase t).
    + destruct ST as [-> ->]. split; [lia|now left].
    + destruct ST as [-> ->]. split; [lia|now left].
    + destruct ST as [[-> ->]|(e & s2 & EV & Q & Q2)]; [split; [lia|now left]|]. eapply Fail; eauto. rewrite Q2. reflexivity.
    + destruct ST as [EV Q]. eapply Fail; eauto. cbn. now rewrite app_nil_r.
    + destruct ST as [EV Q]. eapply Fail; eauto. cbn. now rewrite app_nil_r.
  - unfold gone. rewrite T. intros G. exists s. split; auto. rewrite X1, X2 in *. rewrite E, X3 in ST.
    destruct (te_phase t); try discriminate.
    + destruct ST as [[-> ->]|(e & s2 & EV & Q & Q2)]; (split; [lia|]).
      * left. split; auto. destruct stopped; [now right|left]. destruct (Z eq_refl eq_refl); lia.
      * right. split; [lia|]. exists (Err e), s2. split; auto. split; [right; eauto|]. rewrite Q2. reflexivity.
    + destruct ST as [EV Q]. split; [lia|]. right. split; [lia|]. do 2 eexists. split; [exact EV|]. split; [now left|]. cbn. now rewrite app_nil_r.
Qed.
Lemma moved_trace flag th th' sent : th_phase th = InBody -> thread_move name body m (g_stat g) flag th = (th', sent) ->
  exists o s2, eval_block (th_env th) body (th_state th) = (o, s2) /\ s_trace (th_state th') = s_trace s2 ++ afterwards (th_env th) o s2.
Proof.
  intros P. unfold thread_move. rewrite P. destruct (eval_block _ _ _) as [o s2]. destruct o as [v|e| |]; [unfold ctx_records; rewrite print_records|..]; intros [= <- _]; do 2 eexists; (split; [reflexivity|]); cbn; auto; now rewrite app_nil_r.
Qed.
Lemma busy d t th bs a own : pictured g name body m d t th -> te_todo t <> [] -> own ++ pend (te_todo t) = s_trace (te_state t) ->
  stands name body c files th bs a -> a <= m ->
  exists bs', under_way (te_env t) body c m bs' own /\
  seen d t = option_map (fun f => write_batches f (numbered name (j_thread (te_job t)) bs')) (files (j_thread (te_job t))).
Proof.
  intros (I & E & X) T OW ST A. destruct (te_todo t) as [|x r] eqn:TD; [congruence|]. clear T. destruct X as (X1 & th' & dn & evs & b & sent & MV & TO & TR & SE & FI).
  assert (PE : pend (x :: r) = evs) by (rewrite TO, !pend_app, pend_do; destruct b, sent; apply app_nil_r).
  rewrite PE, TR, app_assoc in OW. apply app_inv_tail in OW. subst own.
  pose proof ST as (s & IT & FF & PH). rewrite X1 in PH. destruct PH as [PH ->]. pose proof (iterated_length _ _ _ _ _ _ IT) as L.
  destruct SE as (S1 & S2 & S3 & S4).
  destruct (moved_trace _ _ _ _ X1 MV) as (o & s2 & EV & Q). rewrite S3, TR in Q.
  assert (Cases : (evs <> [] \/ b <> None) \/ (evs = [] /\ b = None)) by (destruct evs; [destruct b|]; auto; left; (left; discriminate) || (right; discriminate)).
  destruct Cases as [Fi|[-> ->]].
  - exists bs. split.
    + exists s. rewrite <- L, <- E. split; auto. split; [lia|]. right. split; [lia|]. rewrite PH in EV. exists o, s2. split; auto. rewrite PH. split; [apply starts_more|]. rewrite <- Q, PH. rewrite app_assoc. apply starts_more.
    + rewrite <- (FI Fi), FF, I. reflexivity.
  - destruct sent as [rs|]; [|discriminate]. destruct (move_body_stands _ _ _ _ _ _ _ _ _ _ _ _ X1 MV ST) as (I' & E' & _ & [(_ & Z & _)|(rs' & ST' & Z & N' & H' & v & s1 & EV' & ->)]); [discriminate|].
    exists (bs ++ [c_recs (s_ctx s1)]). destruct ST' as (s' & IT' & FF' & PH'). rewrite H' in PH'. destruct PH' as [PH' _]. pose proof (iterated_length _ _ _ _ _ _ IT') as L'. rewrite E' in IT'. split.
    + exists s'. rewrite <- L', <- E. split; auto. split; [lia|]. left. rewrite <- PH', S3, TR. cbn [app]. now rewrite app_nil_r.
    + rewrite <- S4, FF', I', I. reflexivity.
Qed.

(** at any time *)
Lemma iterated_none w : iterated w body c 0 (St (Ctx (c_vars c) (c_reqs c) []) []) [].
Proof. apply it_start. Qed.
Lemma tester_of p id : goes g start p -> id < threads ->
  (exists t, In t (p_testers p) /\ j_thread (te_job t) = id) \/ (~ In id (ids (p_testers p)) /\ p_main p <> Gone true /\ p_main p <> Joining).
Proof.
  intros H L. destruct (in_dec N.eq_dec id (ids (p_testers p))) as [I|NI].
  - left. apply in_map_iff in I. destruct I as (t & E & I). eauto.
  - right. split; auto. pose proof (sound_named _ _ _ _ _ _ _ _ _ _ H) as [(rest & J & O) _ _ _ _ _ _].
    assert (IJ : In id (map j_thread js0)).
    { destruct (named_jobs_shape pod c name body m (N.to_nat threads) 0) as [T _]. cbv zeta in T. rewrite T. apply in_map_iff. exists (N.to_nat id). split; [lia|]. apply in_seq. lia. }
    assert (NR : rest <> []).
    { intros ->. rewrite app_nil_r in J. rewrite J, map_map in IJ. contradiction. }
    destruct (p_main p) as [js| | |[|]|]; cbn in O; split; congruence.
Qed.
Lemma thread_facts p : goes g start p -> forall t, In t (p_testers p) -> exists th bs a, pictured g name body m (p_disk p) t th /\ stands name body c files th bs a /\ a <= m /\ (negb (p_flag p) = false -> th_phase th = Finished -> a = m \/ a = th_number th + 1).
Proof.
  intros H t I. destruct (process_refines _ _ _ _ _ _ _ _ _ _ H) as (r & E & ths & rest & RT & F & _ & RF & _). apply inv_reach in E. destruct E as (_ & bss & rc & G & _).
  destruct (Forall2_in_l _ _ _ _ F I) as (th & Ith & P). assert (Ir : In th (run_threads r)) by (rewrite RT; apply in_or_app; now left).
  destruct (Forall2_in_l _ _ _ _ G Ir) as (bs & _ & a & ST & A & Z). rewrite RF in Z. exists th, bs, a. split; auto. split; auto. split; auto. intros N. apply Z. now destruct (p_flag p).
Qed.
Lemma own_pend p t : goes g start p -> In t (p_testers p) -> events_of (Tester (j_thread (te_job t))) (p_log p) ++ pend (te_todo t) = s_trace (te_state t) /\ te_env t = g_world g (j_thread (te_job t)) /\ te_path t = option_map (fun q => record_path g q (j_thread (te_job t))) pod.
Proof.
  intros H I. pose proof (sound_named _ _ _ _ _ _ _ _ _ _ H) as [(rest & J & _) SF _ _ OW _ _]. rewrite Forall_forall in SF, OW. split; auto. destruct (SF _ I) as [A B]. split; auto. rewrite B. unfold file_of.
  assert (IJ : In (te_job t) js0) by (rewrite J; apply in_or_app; left; now apply in_map).
  destruct (named_shape pod c name body m threads _ IJ) as (_ & _ & _ & _ & ->). unfold record_name, record_path. now destruct pod.
Qed.
(** the file of a tester always exists *)
Lemma file_there p : goes g start p -> forall t path, In t (p_testers p) -> te_path t = Some path -> mget path (p_disk p) <> None.
Proof.
  remember start as b eqn:B. intros H. induction H as [|p p1 p2 H IH S]; subst; [contradiction|]. specialize (IH eq_refl).
  destruct S as [j js ts flag q mm r l d C|j js ts flag q mm r l d pa E C|ts flag q mm r l d|mp ts1 t ts2 flag q mm r l d a t' R MV|ts flag q mm r l d|ts flag rs q mm l d G|ts flag mm l d G A|ts flag q mm r l d A R|ts flag q mm r l d];
    cbn [p_testers p_disk] in *; auto.
  - intros t path I P. unfold disk_created. apply in_app_or in I. destruct I as [I|[<-|[]]].
    + destruct (te_path (new_tester g j)) as [p'|]; [|eauto]. rewrite mget_mset. destruct (str_eqb _ _); [discriminate|eauto].
    + rewrite P. rewrite mget_mset_same. discriminate.
  - destruct (move_ends _ _ _ _ _ MV) as (_ & _ & E3). intros x path I P.
    assert (Q : mget path d <> None).
    { apply in_app_or in I. destruct I as [I|[<-|I]]; [apply (IH x)|apply (IH t)|apply (IH x)]; auto; try (apply in_or_app; cbn; auto); congruence. }
    unfold disk_after. destruct a as [[e|b|rs]|]; auto. destruct (te_path t) as [p'|]; auto. rewrite mget_mset. destruct (str_eqb _ _); [discriminate|auto].
Qed.
Lemma seen_file p t q bs : goes g start p -> In t (p_testers p) -> pod = Some q ->
  seen (p_disk p) t = option_map (fun f => write_batches f (numbered name (j_thread (te_job t)) bs)) (files (j_thread (te_job t))) ->
  mget (record_path g q (j_thread (te_job t))) (p_disk p) = Some (recorded g (record_path g q (j_thread (te_job t))) name (j_thread (te_job t)) bs).
Proof.
  intros H I P. destruct (own_pend _ _ H I) as (_ & _ & TP). rewrite P in TP. cbn [option_map] in TP. pose proof (file_there _ H _ _ I TP) as N.
  unfold seen, fresh_file. rewrite TP, P. cbn [record_name option_map]. unfold content, recorded. fold (record_path g q (j_thread (te_job t))).
  destruct (mget _ (p_disk p)) as [x|]; [|congruence]. intros [= Q]. rewrite <- Q. reflexivity.
Qed.
Theorem thread_view p id : goes g start p -> id < threads -> exists bs, under_way (g_world g id) body c m bs (events_of (Tester id) (p_log p)) /\
  forall q, pod = Some q -> mget (record_path g q id) (p_disk p) = Some (recorded g (record_path g q id) name id bs) \/
    (bs = [] /\ events_of (Tester id) (p_log p) = [] /\ mget (record_path g q id) (p_disk p) = mget (record_path g q id) d0 /\ p_main p <> Gone true /\ ~ In id (ids (p_testers p))).
Proof.
  intros H L. destruct (tester_of _ _ H L) as [(t & I & <-)|(NI & G & _)].
  - destruct (own_pend _ _ H I) as (OW & EN & TP). destruct (thread_facts _ H _ I) as (th & bs & a & P & ST & A & Z). rewrite <- EN.
    destruct (te_todo t) as [|x r] eqn:T.
    + cbn [pend flat_map] in OW. rewrite app_nil_r in OW. destruct (resting _ _ _ _ _ _ _ P T OW ST A Z) as (U & _ & S). exists bs. split; auto.
      intros q Q. left. now apply seen_file.
    + rewrite <- T in OW. assert (NT : te_todo t <> []) by congruence. destruct (busy _ _ _ _ _ _ P NT OW ST A) as (bs' & U & S).
      exists bs'. split; auto. intros q Q. left. now apply seen_file.
  - exists []. pose proof (sound_named _ _ _ _ _ _ _ _ _ _ H) as [_ SF _ _ _ NO DI]. rewrite (NO _ NI). split.
    + eexists. split; [apply it_start|]. split; [cbn; lia|now left].
    + intros q Q. right. repeat split; auto. apply DI. intros t I E. destruct (own_pend _ _ H I) as (_ & _ & TP). rewrite E, Q in TP. injection TP as TP. apply record_path_inj in TP.
      apply NI. rewrite TP. now apply (in_map (fun t => j_thread (te_job t))).
Qed.
(** in the end *)
Theorem files_kept p path : goes g start p -> (forall q id, pod = Some q -> id < threads -> path <> record_path g q id) -> mget path (p_disk p) = mget path d0.
Proof.
  intros H N. apply (so_disk _ _ _ _ _ (sound_named _ _ _ _ _ _ _ _ _ _ H)). intros t I E. destruct (own_pend _ _ H I) as (_ & _ & TP). rewrite E in TP.
  destruct pod as [q|] eqn:Q; [|discriminate]. injection TP as TP. rewrite <- Q in H. destruct (named_limit _ H _ I) as [_ B]. exact (N q _ eq_refl B TP).
Qed.
Theorem process_end p : goes g start p -> p_main p = Gone true -> exists bss, length bss = N.to_nat threads /\
  (forall id bs, nth_error bss (N.to_nat id) = Some bs -> done_with (g_world g id) body c m (negb (p_flag p)) bs (events_of (Tester id) (p_log p)) /\
    forall q, pod = Some q -> mget (record_path g q id) (p_disk p) = Some (recorded g (record_path g q id) name id bs)) /\
  (g_stat g = false -> events_of Collector (p_log p) = []) /\
  (g_stat g = true -> (forall ks, Permutation (g_order g ks) ks) -> exists l text, p_log p = l ++ [(Collector, Printed text)] /\ events_of Collector l = [] /\
    stat_report (flat_map samples (List.concat bss)) text).
Proof.
  intros H G. destruct (exit_from _ _ _ H) as [AG RE]; [discriminate|exact G|]. destruct (named_last _ H) as [LW _].
  destruct (process_refines _ _ _ _ _ _ _ _ _ _ H) as (r & E & ths & rest & RT & F & TO & RF & RQ & RS & RP). unfold tail_ok in TO. rewrite G in TO. subst rest. rewrite app_nil_r in RT.
  destruct (inv_reach _ _ _ _ _ _ _ _ _ _ E) as (CR & bss & rc & GD & PE & ST & PR). exists bss.
  pose proof (crew_length _ _ _ CR) as CL.
  assert (LL : length bss = length (run_threads r)) by (clear -GD; induction GD; cbn; auto).
  split; [lia|]. split; [|split].
  - intros id bs NB. assert (exists th, nth_error (run_threads r) (N.to_nat id) = Some th /\ good name body c files m (run_flag r) th bs) as (th & NT & GT).
    { clear -GD NB. revert NB. generalize (N.to_nat id) as i. induction GD as [|x y l k Q F IH]; intros [|i] NB; try discriminate; [injection NB as <-; exists x; split; [reflexivity|exact Q]|]. apply IH. exact NB. }
    assert (exists t, In t (p_testers p) /\ pictured g name body m (p_disk p) t th) as (t & It & PT).
    { apply nth_error_In in NT. rewrite RT in NT. destruct (Forall2_in_r _ _ _ _ F NT) as (t & A & B). eauto. }
    assert (ID : th_id th = id).
    { destruct CR as [C1 _]. assert (Q : nth_error (map th_id (run_threads r)) (N.to_nat id) = Some (th_id th)) by now rewrite nth_error_map, NT.
      assert (L : (N.to_nat id < N.to_nat threads)%nat) by (rewrite <- CL, Nat2N.id; apply nth_error_Some; congruence).
      rewrite C1, nth_error_map, (nth_error_nth' _ 0%nat) in Q by (rewrite seq_length; lia). rewrite seq_nth in Q by lia. cbn in Q. injection Q as <-. lia. }
    pose proof PT as (I1 & I2 & _). rewrite <- ID, I1. destruct (own_pend _ _ H It) as (OW & EN & TP). rewrite Forall_forall in AG. pose proof (AG _ It) as Gt.
    assert (T : te_todo t = []) by (unfold gone in Gt; destruct (te_todo t); [reflexivity|discriminate]). rewrite T in OW. cbn [pend flat_map] in OW. rewrite app_nil_r in OW.
    destruct GT as (a & S & A & Z). rewrite RF in Z. destruct (resting _ _ _ _ _ _ (negb (p_flag p)) PT T OW S A) as (_ & D & SE); [intros N; apply Z; now destruct (p_flag p)|].
    rewrite <- EN. split; auto. intros q Q. now apply seen_file.
  - intros GS. unfold last_word in LW. rewrite RE, GS in LW. exact LW.
  - intros GS O. unfold last_word in LW. rewrite RE, GS in LW. rewrite RE, GS in RP. destruct LW as (_ & _ & (l & LG & NC) & _ & Q). do 2 eexists. split; [exact LG|]. split; auto.
    rewrite GS, RQ, Q, app_nil_r in PE. rewrite <- RS, ST. eapply report_perm; [|apply show_gather; auto]. apply Permutation_flat_map. now apply Permutation_sym.
Qed.
End Named.
