(** The [test] command when output is refused or a signal comes: the theorems *)
From Verif Require Import SpecOutage TestProofs TextProofs ValueProofs EvaluatorTop RunProofs RunTop RunMore SendProofs ProcessProofs ProcessRun ProcessTop ProcessEnds ProcessOnce ProcessLaunch OutageProofs OutageTop.
From Coq Require Import Permutation Lia.
Open Scope N_scope.

Lemma snd_main (l : list event) : map snd (map (pair Main) l) = l.
Proof. rewrite map_map. apply map_id. Qed.
Lemma launch_log iter w root name threads duration number record pod d : let p := launch iter w root name threads duration number record pod d in
  p_log p = map (pair Main) (map snd (p_log p)) /\ p_testers p = [] /\ p_reported p = false /\ p_disk p = d /\ p_flag p = true.
Proof. cbv zeta. unfold launch. destruct (read_node _ _) as [text|]; [|repeat split]. destruct (main_test _ _ _ _ _ _ _ _) as [[[js|]|e| |] s]; cbn; now rewrite snd_main. Qed.
Lemma main_tester id l : events_of (Tester id) (map (pair Main) l) = [].
Proof. apply events_main. Qed.

(** ** the moments of an execution *)
Definition begun (s1 : st) (k : state) : Prop :=
  exists m l, log_of k = map (pair Main) m ++ l /\ starts_with m (s_trace s1) /\ Forall (fun x => fst x <> Main) l /\ (l <> [] -> m = s_trace s1).

Section Moments.
Variables (g : setting) (iter : list (str * list expr) -> list (str * list expr)) (w : env) (h : str * node) (path : option (str * node)) (name : option str)
  (threads : N) (duration : option N) (number : N) (record : bool) (pod : str) (d : amap bytes).
Local Notation L := (launch iter w (root_of path h) name threads duration number record pod d).
Local Notation start := (command_start iter w (Some h) path name threads duration number record pod d).
Lemma start_is : start = Loading [] (map snd (p_log L)) L.
Proof. reflexivity. Qed.
Lemma start_proper fs k : fs = [] \/ (forall p, goes g L p -> NoDup (ids (p_testers p))) -> reaches g fs start k -> proper g L (map snd (p_log L)) fs k.
Proof. intros ND R. rewrite start_is in R. eapply proper_reaches; eauto. Qed.
Lemma start_moment fs k : (forall p, goes g L p -> NoDup (ids (p_testers p))) -> reaches g fs start k ->
  (exists did todo, map snd (p_log L) = did ++ todo /\ log_of k = map (pair Main) did /\ disk_of k = d) \/
  (exists p dead c, goes g L p /\ log_of k = log_of (Running p dead c) /\ disk_of k = p_disk p /\ told g p dead c).
Proof.
  intros ND R. apply start_proper in R; [|now right]. apply moment in R. destruct R as (k0 & fs0 & V & -> & ->). destruct k0 as [did todo next|p dead c|]; [|right|contradiction].
  - left. destruct V as (-> & E & _). exists did, todo. split; auto. split; auto. apply launch_log.
  - exists p, dead, c. destruct V as (H & _ & _ & _ & _ & _ & T). auto.
Qed.
(** no trouble, no difference *)
Lemma reported_stat p : goes g L p -> p_reported p = true -> g_stat g = true.
Proof.
  remember L as b eqn:B. intros H. induction H as [|p p1 p2 H IH S]; subst; [destruct (launch_log iter w (root_of path h) name threads duration number record pod d) as (_ & _ & R & _); cbv zeta in R; congruence|].
  specialize (IH eq_refl). destruct S; cbn [p_reported] in *; auto.
Qed.
End Moments.

Theorem outage_quiet iter w h path name threads duration number record pod d g k :
  reaches g [] (command_start iter w (Some h) path name threads duration number record pod d) k ->
  (exists did todo, p_log (launch iter w (root_of path h) name threads duration number record pod d) = map (pair Main) (did ++ todo) /\
    log_of k = map (pair Main) did /\ disk_of k = d /\ (forall e s l d', k <> Ended e s l d')) \/
  exists p, goes g (launch iter w (root_of path h) name threads duration number record pod d) p /\ log_of k = p_log p /\ disk_of k = p_disk p /\ stopped_of k = negb (p_flag p) /\
    (forall e s l d', k = Ended e s l d' -> exists b, e = Exit b /\ p_main p = Gone b).
Proof.
  intros R. pose proof (reported_stat g iter w h path name threads duration number record pod d) as RS. apply start_proper in R; [|now left]. set (L := launch _ _ _ _ _ _ _ _ _ _) in *.
  assert (LL : p_log L = map (pair Main) (map snd (p_log L))) by apply launch_log.
  assert (X : forall p c, goes g L p -> told g p [] c -> c <> Refused -> exists p', goes g p p' /\ p_log p' = log_of (Running p [] c) /\ p_disk p' = p_disk p /\ p_flag p' = p_flag p /\
    p_testers p' = p_testers p /\ (c = Waiting -> p' = p) /\ (c <> Waiting -> p_main p' = Joining /\ p_reported p' = true)).
  { intros p c H T N. destruct c as [|text|]; [exists p; split; [apply go_refl|]; do 4 (split; [reflexivity|]); split; [auto|congruence]| |congruence]. destruct T as (G & RE & J & T & Q & A); [discriminate|].
    destruct p as [mp ts flag q mm r l dd]. cbn [p_main p_testers p_reported p_queue p_stats log_of p_log p_disk p_flag] in *. subst. eexists. split; [eapply go_step; [apply go_refl|]; apply ps_report; auto|].
    - eapply Forall_impl; [|exact A]. intros t [Z|[]]. now right.
    - repeat split. discriminate. }
  assert (D : forall dead, (forall id, In (Mute (Tester id)) [] <-> In id dead) -> dead = []).
  { intros [|i dead] E; auto. destruct (proj2 (E i)). now left. }
  destruct R as [V|(e & k0 & -> & C)].
  - destruct k as [did todo next|p dead c|]; [left|right|contradiction].
    + destruct V as (-> & E & _). exists did, todo. rewrite <- E. split; auto. split; auto. split; [apply launch_log|discriminate].
    + destruct V as (H & SA & V1 & _ & _ & V4 & T). apply D in V1. subst dead. destruct (X _ _ H T) as (p' & G & A1 & A2 & A3 & _ & _); [intros ->; now destruct (proj2 V4 eq_refl)|].
      exists p'. split; [eapply goes_trans; eauto|]. rewrite A1, A2, A3. split; auto. split; auto. split; auto. discriminate.
  - right. remember (@nil trouble) as fs eqn:FE. destruct C as [did t todo next V|fs p dead c V J A R|fs p dead c b V G|fs k V NH|fs k V NH|fs p dead c j js V MS Cs|fs p dead c V MS]; subst; try discriminate; try (now apply app_eq_nil in FE; destruct FE).
    + destruct V as (H & SA & V1 & _ & _ & V4 & T). apply D in V1. subst dead. destruct (X _ _ H T) as (p' & G & A1 & A2 & A3 & A4 & A5 & A6); [intros ->; now destruct (proj2 V4 eq_refl)|].
      assert (J' : p_main p' = Joining) by (destruct c as [|text|]; [now rewrite A5|apply A6; discriminate|apply A6; discriminate]).
      assert (R' : p_reported p' = g_stat g).
      { destruct (g_stat g) eqn:GS.
        - destruct (R eq_refl) as [R'|R']; [|now apply A6]. destruct c as [|text|]; [now rewrite A5|apply A6; discriminate|apply A6; discriminate].
        - destruct (p_reported p') eqn:RE; auto. pose proof (RS p' (goes_trans _ _ _ _ H G) RE). congruence. }
      exists (Process (Gone true) (p_testers p') (p_flag p') (p_queue p') (p_stats p') (p_reported p') (p_log p') (p_disk p')). split.
      * eapply go_step; [eapply goes_trans; [exact H|exact G]|]. destruct p' as [mp ts flag q mm r l dd]. cbn [p_main p_testers p_reported p_queue p_stats p_log p_disk p_flag] in *. subst mp ts. apply ps_exit; auto.
        eapply Forall_impl; [|exact A]. intros t [Z|[]]. exact Z.
      * cbn [p_log p_disk p_flag p_main]. unfold ended_as. cbn [log_of disk_of stopped_of]. rewrite A1, A2, A3. split; auto. split; auto. split; auto. intros e s l d' [= <- _ _ _]. eauto.
    + destruct V as (H & SA & V1 & _ & _ & V4 & T). apply D in V1. subst dead. assert (c = Waiting) as ->. { destruct c; auto; destruct T as (_ & _ & J & _); try discriminate; congruence. }
      exists p. split; auto. split; auto. split; auto. split; auto. intros e s l d' [= <- _ _ _]. eauto.
Qed.
Lemma reaches_trans g a b k k1 k2 : reaches g a k k1 -> reaches g b k1 k2 -> reaches g (a ++ b) k k2.
Proof. intros A B. revert A. induction B as [|fs k1 k2 k3 x B IH S]; intros A; [now rewrite app_nil_r|]. rewrite app_assoc. econstructor; eauto. Qed.
Lemma reaches_one g k k' : state_step g None k k' -> reaches g [] k k'.
Proof. intros S. exact (rc_step g [] k k k' None (rc_refl _ _) S). Qed.
Lemma load_all g todo : forall did next, reaches g [] (Loading did todo next) (Running next [] Waiting).
Proof.
  induction todo as [|e todo IH]; intros did next; [apply reaches_one; constructor|]. eapply (reaches_trans g [] []); [apply reaches_one; constructor|apply IH].
Qed.
Lemma plain_run g p p' : goes g p p' -> reaches g [] (Running p [] Waiting) (Running p' [] Waiting).
Proof. intros H. induction H as [p|p p1 p2 H IH S]; [constructor|]. eapply (reaches_trans g [] []); [exact IH|]. apply reaches_one. apply st_turn; [exact S|intros ? _ []|now left]. Qed.
Theorem outage_plain iter w h path name threads duration number record pod d g p :
  goes g (launch iter w (root_of path h) name threads duration number record pod d) p ->
  exists k, reaches g [] (command_start iter w (Some h) path name threads duration number record pod d) k /\ log_of k = p_log p /\ disk_of k = p_disk p /\ stopped_of k = negb (p_flag p) /\
    forall b, p_main p = Gone b -> k = Ended (Exit b) (negb (p_flag p)) (p_log p) (p_disk p).
Proof.
  intros H. assert (R : reaches g [] (command_start iter w (Some h) path name threads duration number record pod d) (Running p [] Waiting)).
  { rewrite start_is. eapply (reaches_trans g [] []); [apply load_all|]. now apply plain_run. }
  destruct (p_main p) as [js| | |b|] eqn:M; try (exists (Running p [] Waiting); repeat split; auto; discriminate).
  exists (Ended (Exit b) (negb (p_flag p)) (p_log p) (p_disk p)). split; [eapply (reaches_trans g [] []); [exact R|]; apply reaches_one; now apply (st_gone g p [] Waiting b)|].
  repeat split. intros b' [= <-]. reflexivity.
Qed.
Theorem outage_nowhere iter w path name threads duration number record pod d g fs k :
  reaches g fs (command_start iter w None path name threads duration number record pod d) k -> k = Ended (Exit false) false [] d /\ fs = [].
Proof.
  remember (command_start _ _ _ _ _ _ _ _ _ _ _) as b eqn:B. cbn in B. intros H. induction H as [|fs k k1 k2 x H IH S]; subst; auto. destruct (IH eq_refl) as [-> ->].
  exfalso. inversion S as [| | | | | | | | |k NE H1 E1 E2 |k NE H1 E1 E2| |]; subst; eapply NE; reflexivity.
Qed.

(** ** a named test *)
Lemma begin_log js l d : p_log (begin js l d) = map (pair Main) l.
Proof. reflexivity. Qed.
Lemma named_start iter w root name threads duration number record pod d src s1 body : loads w root src s1 -> mget name (s_tests src) = Some body -> threads <> 0 ->
  launch iter w root (Some name) threads duration number record pod d =
  begin (named_jobs (if record then Some pod else None) (s_ctx s1) name body (share duration number threads) 0 (N.to_nat threads)) (s_trace s1) d.
Proof. intros Lo M Z. rewrite (launch_named _ _ _ _ _ _ _ _ _ _ _ _ _ Lo M). apply N.eqb_neq in Z. now rewrite Z. Qed.
Theorem outage_named iter w h path name threads duration number record pod d g src s1 body fs k :
  loads w (root_of path h) src s1 -> mget name (s_tests src) = Some body -> threads <> 0 ->
  reaches g fs (command_start iter w (Some h) path (Some name) threads duration number record pod d) k ->
  (exists m l, log_of k = map (pair Main) m ++ l /\ starts_with m (s_trace s1) /\ Forall (fun x => fst x <> Main) l /\ (l <> [] -> m = s_trace s1)) /\
  (forall id, threads <= id -> events_of (Tester id) (log_of k) = []) /\
  (forall id, id < threads -> let own := events_of (Tester id) (log_of k) in let file := record_path g pod id in
    exists bs, under_way (g_world g id) body (s_ctx s1) (share duration number threads) bs own /\
      (record = true -> mget file (disk_of k) = Some (recorded g file name id bs) \/ bs = [] /\ own = [] /\ mget file (disk_of k) = mget file d)) /\
  (forall file, (record = true -> forall id, id < threads -> file <> record_path g pod id) -> mget file (disk_of k) = mget file d).
Proof.
  intros Lo M Z R. pose proof (named_start iter w (root_of path h) name threads duration number record pod d src s1 body Lo M Z) as ST.
  apply start_moment in R; [|intros p H; rewrite ST in H; eapply named_nodup; eauto]. destruct R as [(did & todo & E & -> & ->)|(p & dead & c & H & LG & -> & T)].
  - rewrite ST, begin_log, snd_main in E. split; [|split; [|split]]; auto.
    + exists did, []. rewrite app_nil_r. split; auto. split; [now exists todo|]. split; [constructor|congruence].
    + intros id _. apply main_tester.
    + intros id B. cbv zeta. rewrite main_tester. exists []. split; [|intros _; right; auto]. eexists. split; [apply it_start|]. split; [cbn; lia|now left].
  - pose proof H as H'. rewrite ST in H'. rewrite LG. split; [|split; [|split]].
    + destruct (named_log _ _ _ _ _ _ _ _ _ _ _ _ _ _ _ Lo M Z H) as ((l & EL & FL) & _). exists (s_trace s1), (l ++ match c with Told text => [(Collector, Printed text)] | _ => [] end).
      split; [destruct c; cbn; rewrite EL, ?app_nil_r, ?app_assoc; reflexivity|]. split; [apply starts_refl|]. split; auto. apply Forall_app. split; auto. destruct c; repeat constructor. discriminate.
    + intros id B. rewrite running_log. eapply named_log; eauto.
    + intros id B. cbv zeta. rewrite running_log. destruct (thread_view _ _ _ _ _ _ _ _ _ _ _ H' B) as (bs & U & F). exists bs. split; auto. intros ->. destruct (F pod eq_refl) as [X|(X1 & X2 & X3 & _)]; auto.
    + intros file N. eapply named_kept; eauto.
Qed.
Theorem outage_named_end iter w h path name threads duration number record pod d g src s1 body fs stopped l d' :
  loads w (root_of path h) src s1 -> mget name (s_tests src) = Some body -> threads <> 0 ->
  reaches g fs (command_start iter w (Some h) path (Some name) threads duration number record pod d) (Ended (Exit true) stopped l d') ->
  exists bss, length bss = N.to_nat threads /\
  (forall id bs, nth_error bss (N.to_nat id) = Some bs -> let own := events_of (Tester id) l in
    (~ In (Mute (Tester id)) fs -> done_with (g_world g id) body (s_ctx s1) (share duration number threads) stopped bs own) /\
    (In (Mute (Tester id)) fs -> cut_short (g_world g id) body (s_ctx s1) (share duration number threads) bs own) /\
    (record = true -> mget (record_path g pod id) d' = Some (recorded g (record_path g pod id) name id bs))) /\
  (g_stat g = false \/ In (Mute Collector) fs -> events_of Collector l = []) /\
  (g_stat g = true -> ~ In (Mute Collector) fs -> (forall ks, Permutation (g_order g ks) ks) ->
    exists l1 text, l = l1 ++ [(Collector, Printed text)] /\ events_of Collector l1 = [] /\ stat_report (flat_map samples (List.concat bss)) text).
Proof.
  intros Lo M Z R. pose proof (named_start iter w (root_of path h) name threads duration number record pod d src s1 body Lo M Z) as ST.
  pose proof (reported_stat g iter w h path (Some name) threads duration number record pod d) as RS.
  apply start_proper in R; [|right; intros p H; rewrite ST in H; eapply named_nodup; eauto]. rewrite ST in *.
  destruct R as [[]|(e & k0 & E & C)]. unfold ended_as in E. injection E as <- -> -> ->.
  assert (X : exists p dead c, k0 = Running p dead c /\ live g (begin (named_jobs (if record then Some pod else None) (s_ctx s1) name body (share duration number threads) 0 (N.to_nat threads)) (s_trace s1) d) (s_trace s1) fs k0 /\
    (p_main p = Joining \/ p_main p = Gone true) /\ Forall (stilled dead) (p_testers p) /\ (g_stat g = true -> p_reported p = true \/ c <> Waiting)).
  { remember (Exit true) as ee eqn:EE. destruct C as [did t todo next V|fs p dead c V J A R|fs p dead c b V G|fs k V NH|fs k V NH|fs p dead c j js V MS Cs|fs p dead c V MS]; try discriminate.
    - exists p, dead, c. split; auto.
    - injection EE as ->. exists p, dead, c. split; auto. pose proof V as (H & _). split; [exact V|]. split; auto. destruct (exit_from _ _ _ H) as [AG RE]; [discriminate|exact G|].
      split; [eapply Forall_impl; [|exact AG]; intros t Q; now left|]. intros GS. left. congruence. }
  clear C. destruct X as (p & dead & c & -> & (H & SA & V1 & V2 & V3 & V4 & T) & J & A & RE).
  destruct (process_tail _ _ _ _ _ _ _ _ _ _ _ H J A SA) as (bss & LB & TB & SB). exists bss. split; auto. destruct (named_last _ _ _ _ _ _ _ _ _ _ H) as [LW _]. unfold last_word in LW. split; [|split].
  - intros id bs N. cbv zeta. rewrite running_log. destruct (TB _ _ N) as (B1 & B2 & B3). cbn [stopped_of disk_of]. rewrite V1. split; auto. split; auto. intros ->. now apply B3.
  - intros Q. assert (c <> Waiting -> g_stat g = true /\ p_reported p = false) as T' by (intros N; destruct (T N) as (? & ? & _); auto). destruct Q as [Q|Q].
    + destruct c as [|text|]; [|destruct T'; [discriminate|congruence]|destruct T'; [discriminate|congruence]]. cbn [log_of]. destruct (p_reported p); [destruct LW; congruence|exact LW].
    + apply V4 in Q. subst c. cbn [log_of]. destruct T' as [_ RF]; [discriminate|]. now rewrite RF in LW.
  - intros GS NR O. destruct c as [|text|]; [| |exfalso; tauto].
    + destruct (RE GS) as [RP|]; [|congruence]. rewrite RP in LW. destruct LW as (_ & _ & (l1 & EL & NC) & _ & Q). exists l1, (show_stats (g_order g) (p_stats p)). cbn [log_of]. auto.
    + destruct T as (_ & RF & _ & -> & Q & _); [discriminate|]. rewrite RF in LW. exists (p_log p), (show_stats (g_order g) (p_stats p)). cbn [log_of]. auto.
Qed.

(** ** every test once *)
Theorem outage_all iter w h path threads duration number record pod d g src s1 fs k :
  loads w (root_of path h) src s1 -> N.of_nat (length (iter (s_tests src))) <= 2 ^ 32 ->
  reaches g fs (command_start iter w (Some h) path None threads duration number record pod d) k ->
  (exists m l, log_of k = map (pair Main) m ++ l /\ starts_with m (s_trace s1) /\ Forall (fun x => fst x <> Main) l /\ (l <> [] -> m = s_trace s1)) /\
  (forall id, N.of_nat (length (iter (s_tests src))) <= id -> events_of (Tester id) (log_of k) = []) /\
  (events_of Collector (log_of k) = [] \/ g_stat g = true /\ events_of Collector (log_of k) = [Printed []]) /\
  (forall id name body, nth_error (iter (s_tests src)) (N.to_nat id) = Some (name, body) ->
    exists o s2, eval_block (g_world g id) body (St (Ctx (c_vars (s_ctx s1)) (c_reqs (s_ctx s1)) []) []) = (o, s2) /\
    let own := events_of (Tester id) (log_of k) in let whole := s_trace s2 ++ afterwards_once (g_world g id) o s2 in let file := record_path g pod id in
    starts_with own whole /\
    (record = true -> (own = [] /\ mget file (disk_of k) = mget file d) \/ mget file (disk_of k) = Some (recorded g file name id []) \/
      (own = whole /\ o <> Panic /\ o <> Diverge /\ mget file (disk_of k) = Some (recorded g file name id [c_recs (s_ctx s2)])))) /\
  (forall file, (record = true -> forall id, id < N.of_nat (length (iter (s_tests src))) -> file <> record_path g pod id) -> mget file (disk_of k) = mget file d).
Proof.
  intros Lo Fe R. pose proof (launch_all iter w (root_of path h) threads duration number record pod d src s1 Lo) as ST.
  apply start_moment in R; [|intros p H; rewrite ST in H; eapply all_nodup; eauto]. destruct R as [(did & todo & E & -> & ->)|(p & dead & c & H & LG & -> & T)].
  - rewrite ST, begin_log, snd_main in E. split; [|split; [|split; [|split]]]; auto.
    + exists did, []. rewrite app_nil_r. split; auto. split; [now exists todo|]. split; [constructor|congruence].
    + intros id _. apply main_tester.
    + left. apply collector_main.
    + intros id name body N. destruct (eval_block _ _ _) as [o s2] eqn:EV. exists o, s2. split; auto. cbv zeta. rewrite main_tester. split; [eexists; reflexivity|]. intros _. now left.
  - pose proof H as H'. rewrite ST in H'. rewrite LG. split; [|split; [|split; [|split]]].
    + destruct (all_log _ _ _ _ _ _ _ _ _ _ _ _ _ Lo Fe H) as ((l & EL & FL) & _). exists (s_trace s1), (l ++ match c with Told text => [(Collector, Printed text)] | _ => [] end).
      split; [destruct c; cbn; rewrite EL, ?app_nil_r, ?app_assoc; reflexivity|]. split; [apply starts_refl|]. split; auto. apply Forall_app. split; auto. destruct c; repeat constructor. discriminate.
    + intros id B. rewrite running_log. eapply all_log; eauto.
    + destruct (once_goes _ _ _ _ _ _ Fe _ H') as [_ (_ & Q2 & Q3)]. destruct (all_log _ _ _ _ _ _ _ _ _ _ _ _ _ Lo Fe H) as (_ & _ & A & _). destruct c as [|text|]; auto.
      destruct T as (G & RF & _ & -> & _); [discriminate|]. right. split; auto. cbn [log_of]. rewrite events_app, events_one, Q3, RF, Q2, no_report. reflexivity.
    + intros id name body N. cbv zeta. destruct (all_threads _ _ _ _ _ _ _ _ _ _ _ _ _ _ _ _ Lo Fe N H) as (o & s2 & EV & A & _ & B). exists o, s2. split; auto. rewrite running_log. split; auto.
      intros RE. destruct (B RE) as [(X & Y & _)|[(X & _)|X]]; auto.
    + intros file N. eapply all_kept; eauto.
Qed.
Theorem outage_all_end iter w h path threads duration number record pod d g src s1 fs stopped l d' :
  loads w (root_of path h) src s1 -> N.of_nat (length (iter (s_tests src))) <= 2 ^ 32 ->
  reaches g fs (command_start iter w (Some h) path None threads duration number record pod d) (Ended (Exit true) stopped l d') ->
  (forall id name body, nth_error (iter (s_tests src)) (N.to_nat id) = Some (name, body) ->
    exists o s2, eval_block (g_world g id) body (St (Ctx (c_vars (s_ctx s1)) (c_reqs (s_ctx s1)) []) []) = (o, s2) /\
    let own := events_of (Tester id) l in let whole := s_trace s2 ++ afterwards_once (g_world g id) o s2 in let file := record_path g pod id in
    (~ In (Mute (Tester id)) fs -> own = whole /\ o <> Diverge) /\
    (In (Mute (Tester id)) fs -> exists x rest, whole = own ++ Printed x :: rest) /\
    (record = true -> In (Mute (Tester id)) fs \/ o = Panic -> mget file d' = Some (recorded g file name id [])) /\
    (record = true -> ~ In (Mute (Tester id)) fs -> o <> Panic -> mget file d' = Some (recorded g file name id [c_recs (s_ctx s2)]))) /\
  (g_stat g = false \/ In (Mute Collector) fs -> events_of Collector l = []) /\
  (g_stat g = true -> ~ In (Mute Collector) fs -> events_of Collector l = [Printed []]).
Proof.
  intros Lo Fe R. pose proof (launch_all iter w (root_of path h) threads duration number record pod d src s1 Lo) as ST.
  pose proof (reported_stat g iter w h path None threads duration number record pod d) as RS.
  apply start_proper in R; [|right; intros p H; rewrite ST in H; eapply all_nodup; eauto]. rewrite ST in *.
  destruct R as [[]|(e & k0 & E & C)]. unfold ended_as in E. injection E as <- -> -> ->.
  assert (X : exists p dead c, k0 = Running p dead c /\ live g (begin (all_jobs (if record then Some pod else None) (s_ctx s1) 0 (iter (s_tests src))) (s_trace s1) d) (s_trace s1) fs k0 /\
    (p_main p = Joining \/ p_main p = Gone true) /\ Forall (stilled dead) (p_testers p) /\ (g_stat g = true -> p_reported p = true \/ c <> Waiting)).
  { remember (Exit true) as ee eqn:EE. destruct C as [did t todo next V|fs p dead c V J A R|fs p dead c b V G|fs k V NH|fs k V NH|fs p dead c j js V MS Cs|fs p dead c V MS]; try discriminate.
    - exists p, dead, c. split; auto.
    - injection EE as ->. exists p, dead, c. split; auto. pose proof V as (H & _). split; [exact V|]. split; auto. destruct (exit_from _ _ _ H) as [AG RE]; [discriminate|exact G|].
      split; [eapply Forall_impl; [|exact AG]; intros t Q; now left|]. intros GS. left. congruence. }
  clear C. destruct X as (p & dead & c & -> & (H & SA & V1 & V2 & V3 & V4 & T) & J & A & RE).
  destruct (once_goes _ _ _ _ _ _ Fe _ H) as [_ (_ & Q2 & Q3)]. split; [|split].
  - intros id name body N. cbv zeta. rewrite running_log. destruct (once_tail _ _ _ _ _ _ Fe _ _ _ _ _ H J A SA N) as (o & s2 & EV & B1 & B2 & B3). exists o, s2. split; auto. cbn [stopped_of disk_of]. rewrite V1.
    split; auto. split; auto. split; intros ->; destruct (B3 pod eq_refl) as [D1 D2]; auto.
  - intros Q. assert (c <> Waiting -> g_stat g = true /\ p_reported p = false) as T' by (intros N; destruct (T N) as (? & ? & _); auto). destruct Q as [Q|Q].
    + destruct c as [|text|]; [|destruct T'; [discriminate|congruence]|destruct T'; [discriminate|congruence]]. cbn [log_of]. destruct (p_reported p) eqn:RP; [apply (RS _ H) in RP; congruence|exact Q3].
    + apply V4 in Q. subst c. cbn [log_of]. destruct T' as [_ RF]; [discriminate|]. now rewrite RF in Q3.
  - intros GS NR. destruct c as [|text|]; [| |exfalso; tauto].
    + destruct (RE GS) as [RP|]; [|congruence]. rewrite RP in Q3. exact Q3.
    + destruct T as (_ & RF & _ & -> & Q & _); [discriminate|]. rewrite RF in Q3. cbn [log_of]. now rewrite events_app, events_one, Q3, Q2, no_report.
Qed.

(** ** the exit status *)
Lemma inside iter w h path name threads duration number record pod d g fs k :
  let L := launch iter w (root_of path h) name threads duration number record pod d in
  reaches g fs (command_start iter w (Some h) path name threads duration number record pod d) k ->
  match k with
  | Loading did todo next => next = L /\ p_log L = map (pair Main) (did ++ todo) /\ fs = []
  | Running p _ _ => goes g L p /\ ~ In (Mute Main) fs
  | Ended e s l d' => In (Mute Main) fs -> exists did t todo, p_log L = map (pair Main) (did ++ Printed t :: todo) /\ k = Ended (Exit false) false (map (pair Main) did) d /\ fs = [Mute Main]
  end.
Proof.
  intros L H. remember (command_start _ _ _ _ _ _ _ _ _ _ _) as b eqn:B. induction H as [|fs k k1 k2 x H IH S]; subst.
  - rewrite start_is. split; auto. split; auto. apply launch_log.
  - specialize (IH eq_refl).
    destruct S as [did e todo next|did t todo next|did next|p p' dead c S K R|p dead c t y rest RU I T N|p dead G J R Q A|p dead G J R Q A|p dead c J A R|p dead c b G|k NE Hh|k NE Hh|p0 dead0 c0 j js MS Cs|p0 dead0 c0 MS]; rewrite ?app_nil_r.
    + destruct IH as (-> & E & ->). rewrite <- app_assoc. auto.
    + destruct IH as (-> & E & ->). intros _. exists did, t, todo. split; auto. split; auto. unfold ended_as. cbn [stopped_of log_of disk_of]. f_equal. apply launch_log.
    + destruct IH as (-> & E & ->). split; [constructor|auto].
    + destruct IH as [IH IN]. split; auto. eapply go_step; eauto.
    + destruct IH as [IH IN]. split; auto. intros Z. apply in_app_or in Z. destruct Z as [Z|[Z|[]]]; [auto|discriminate].
    + auto.
    + destruct IH as [IH IN]. split; auto. intros Z. apply in_app_or in Z. destruct Z as [Z|[Z|[]]]; [auto|discriminate].
    + destruct IH as [IH IN]. intros Z. contradiction.
    + destruct IH as [IH IN]. intros Z. contradiction.
    + unfold ended_as. intros Z. apply in_app_or in Z. destruct Z as [Z|[Z|[]]]; [|discriminate]. destruct k; [destruct IH as (_ & _ & ->); contradiction|tauto|exfalso; eapply NE; reflexivity].
    + unfold ended_as. intros Z. apply in_app_or in Z. destruct Z as [Z|[Z|[]]]; [|discriminate]. destruct k; [destruct IH as (_ & _ & ->); contradiction|tauto|exfalso; eapply NE; reflexivity].
    + destruct IH as [IH IN]. intros Z. apply in_app_or in Z. destruct Z as [Z|[Z|[]]]; [contradiction|discriminate].
    + destruct IH as [IH IN]. unfold ended_as. intros Z. apply in_app_or in Z. destruct Z as [Z|[Z|[]]]; [contradiction|discriminate].
Qed.
Theorem outage_mute_main iter w h path name threads duration number record pod d g fs k :
  reaches g fs (command_start iter w (Some h) path name threads duration number record pod d) k -> In (Mute Main) fs ->
  exists did t todo, p_log (launch iter w (root_of path h) name threads duration number record pod d) = map (pair Main) (did ++ Printed t :: todo) /\
    k = Ended (Exit false) false (map (pair Main) did) d /\ fs = [Mute Main].
Proof.
  intros R I. apply inside in R. destruct k; [destruct R as (_ & _ & ->); contradiction|tauto|auto].
Qed.
Theorem outage_named_status iter w h path name threads duration number record pod d g src s1 body fs stopped l d' :
  loads w (root_of path h) src s1 -> mget name (s_tests src) = Some body -> threads <> 0 -> (record = true -> forall id, id < threads -> g_creates g (record_path g pod id) = true) ->
  reaches g fs (command_start iter w (Some h) path (Some name) threads duration number record pod d) (Ended (Exit false) stopped l d') -> fs = [Mute Main] \/ exists fs', fs = fs' ++ [Unstarted].
Proof.
  intros Lo M Z Cr R. pose proof (named_start iter w (root_of path h) name threads duration number record pod d src s1 body Lo M Z) as ST.
  apply start_proper in R; [|right; intros p H; rewrite ST in H; eapply named_nodup; eauto]. destruct R as [[]|(e & k0 & E & C)]. unfold ended_as in E. injection E as <- _ _ _.
  remember (Exit false) as ee eqn:EE. destruct C as [did t todo next V|fs p dead c V J A R|fs p dead c b V G|fs k V NH|fs k V NH|fs p dead c j js V MS Cs|fs p dead c V MS]; try discriminate; eauto.
  injection EE as ->. destruct V as [H _]. exfalso. eapply exit_named; eauto.
Qed.
Theorem outage_all_status iter w h path threads duration number record pod d g src s1 fs stopped l d' :
  loads w (root_of path h) src s1 -> N.of_nat (length (iter (s_tests src))) <= 2 ^ 32 ->
  (record = true -> forall id, id < N.of_nat (length (iter (s_tests src))) -> g_creates g (record_path g pod id) = true) ->
  reaches g fs (command_start iter w (Some h) path None threads duration number record pod d) (Ended (Exit false) stopped l d') -> fs = [Mute Main] \/ exists fs', fs = fs' ++ [Unstarted].
Proof.
  intros Lo Fe Cr R. pose proof (launch_all iter w (root_of path h) threads duration number record pod d src s1 Lo) as ST.
  apply start_proper in R; [|right; intros p H; rewrite ST in H; eapply all_nodup; eauto]. destruct R as [[]|(e & k0 & E & C)]. unfold ended_as in E. injection E as <- _ _ _.
  remember (Exit false) as ee eqn:EE. destruct C as [did t todo next V|fs p dead c V J A R|fs p dead c b V G|fs k V NH|fs k V NH|fs p dead c j js V MS Cs|fs p dead c V MS]; try discriminate; eauto.
  injection EE as ->. destruct V as [H _]. exfalso. eapply exit_all; eauto.
Qed.

(** ** the interrupt *)
Theorem outage_caught iter w h path name threads duration number record pod d g src s1 body fs p dead c :
  loads w (root_of path h) src s1 -> mget name (s_tests src) = Some body -> threads <> 0 -> g_heeds g = true ->
  reaches g fs (command_start iter w (Some h) path (Some name) threads duration number record pod d) (Running p dead c) -> p_main p = Joining ->
  (forall x s l d', ~ state_step g x (Running p dead c) (Ended ByInterrupt s l d')) /\
  exists p', state_step g None (Running p dead c) (Running p' dead c) /\ p_flag p' = false /\ p_testers p' = p_testers p /\ p_log p' = p_log p /\ p_disk p' = p_disk p.
Proof.
  intros Lo M Z HE R J. pose proof (inside _ _ _ _ _ _ _ _ _ _ _ _ _ _ R) as [H _]. rewrite (named_start _ _ _ _ _ _ _ _ _ _ _ _ _ Lo M Z) in H.
  destruct (tester_of _ _ _ _ _ _ _ _ _ _ 0 H) as [(t & I & _)|(_ & _ & N)]; [lia| |contradiction]. split.
  - intros x s l d' S. inversion S as [| | | | | | | | |k NE Hh E1 E2| | |]; subst. destruct (Hh _ _ _ eq_refl) as [NH _]. apply NH. split; auto. split; auto. exists t. split; auto.
    destruct (named_limit _ _ _ _ _ _ _ _ _ _ H _ I) as [(_ & _ & Q) _]. congruence.
  - destruct p as [mp ts flag q mm r l dd]. cbn [p_main] in J. subst mp. exists (Process Joining ts false q mm r l dd). split; [|auto]. apply st_turn; [apply ps_stop|auto|now right].
Qed.
(** killed by the signal: nothing was waiting for the threads yet *)
Theorem outage_killed iter w h path name threads duration number record pod d g src s1 body fs stopped l d' :
  loads w (root_of path h) src s1 -> mget name (s_tests src) = Some body -> threads <> 0 -> g_heeds g = true ->
  reaches g fs (command_start iter w (Some h) path (Some name) threads duration number record pod d) (Ended ByInterrupt stopped l d') ->
  stopped = false /\ events_of Collector l = [].
Proof.
  intros Lo M Z HE R. pose proof (named_start iter w (root_of path h) name threads duration number record pod d src s1 body Lo M Z) as ST.
  apply start_proper in R; [|right; intros p H; rewrite ST in H; eapply named_nodup; eauto]. rewrite ST in *. destruct R as [[]|(e & k0 & E & C)]. unfold ended_as in E. injection E as <- -> -> ->.
  remember ByInterrupt as ee eqn:EE. destruct C as [did t todo next V|fs p dead c V J A R|fs p dead c b V G|fs k V NH|fs k V NH|fs p dead c j js V MS Cs|fs p dead c V MS]; try discriminate.
  destruct k as [did todo next|p dead c|]; [split; [reflexivity|apply collector_main]| |contradiction]. destruct (NH _ _ _ eq_refl) as [N RU]. destruct V as (H & SA & V1 & V2 & V3 & V4 & T).
  assert (NJ : p_main p <> Joining).
  { intros J. apply N. split; auto. split; auto. destruct (tester_of _ _ _ _ _ _ _ _ _ _ 0 H) as [(t & I & _)|(_ & _ & X)]; [lia| |contradiction]. exists t. split; auto.
    destruct (named_limit _ _ _ _ _ _ _ _ _ _ H _ I) as [(_ & _ & Q) _]. congruence. }
  assert (c = Waiting) as ->. { destruct c; auto; destruct T as (_ & _ & J & _); try discriminate; contradiction. }
  cbn [stopped_of log_of]. destruct (named_last _ _ _ _ _ _ _ _ _ _ H) as [LW LR]. unfold last_word in LW. split.
  - assert (F : p_main p <> Joining -> p_main p <> Gone true -> p_flag p = true).
    { clear -H. remember (begin _ _ _) as b eqn:B. induction H as [|p p1 p2 H IH S]; subst; auto. specialize (IH eq_refl). destruct S; cbn [p_main p_flag] in *; intros; try congruence; apply IH; discriminate || congruence. }
    rewrite F; auto. intros G. rewrite G in RU. discriminate.
  - destruct (p_reported p); [destruct (LR eq_refl) as [X|X]; [contradiction|rewrite X in RU; discriminate]|exact LW].
Qed.
(** without a name nothing catches it *)
Theorem outage_uncaught iter w h path threads duration number record pod d g src s1 fs p dead c :
  loads w (root_of path h) src s1 -> N.of_nat (length (iter (s_tests src))) <= 2 ^ 32 ->
  reaches g fs (command_start iter w (Some h) path None threads duration number record pod d) (Running p dead c) -> running (p_main p) = true ->
  let k := Running p dead c in state_step g (Some Signal) k (Ended ByInterrupt (stopped_of k) (log_of k) (disk_of k)).
Proof.
  intros Lo Fe R RU k. pose proof (inside _ _ _ _ _ _ _ _ _ _ _ _ _ _ R) as [H _]. rewrite (launch_all _ _ _ _ _ _ _ _ _ _ _ Lo) in H.
  apply (st_interrupt g k); [discriminate|]. intros p' dead' c' [= -> -> ->]. split; auto. intros (_ & _ & t & I & N). apply N. destruct (all_once _ _ _ _ _ _ Fe _ H _ I) as ((Q & _) & _). exact Q.
Qed.
(** nor before all threads are started, or if the handler cannot be set *)
Theorem outage_before g k : (forall e s l d', k <> Ended e s l d') ->
  (forall p dead c, k = Running p dead c -> running (p_main p) = true /\ (p_main p <> Joining \/ g_heeds g = false)) ->
  state_step g (Some Signal) k (Ended ByInterrupt (stopped_of k) (log_of k) (disk_of k)).
Proof.
  intros E H. apply (st_interrupt g k); [exact E|]. intros p dead c K. destruct (H p dead c K) as [R N]. split; auto. intros (G & J & _). destruct N; congruence.
Qed.

(** ** it ends *)
Definition undead (dead : list N) (ts : list tester) : nat := length (filter (fun t => if in_dec N.eq_dec (j_thread (te_job t)) dead then false else true) ts).
Lemma undead_less dead ts t : In t ts -> ~ In (j_thread (te_job t)) dead -> (undead (j_thread (te_job t) :: dead) ts < undead dead ts)%nat.
Proof.
  intros I N. unfold undead.
  assert (LE : forall l, (length (filter (fun x => if in_dec N.eq_dec (j_thread (te_job x)) (j_thread (te_job t) :: dead) then false else true) l) <=
                length (filter (fun x => if in_dec N.eq_dec (j_thread (te_job x)) dead then false else true) l))%nat).
  { induction l as [|x l IH]; cbn [filter]; auto. destruct (in_dec N.eq_dec (j_thread (te_job x)) dead) as [A|A], (in_dec N.eq_dec (j_thread (te_job x)) (j_thread (te_job t) :: dead)) as [B|B]; cbn [length]; try lia.
    exfalso. apply B. now right. }
  induction ts as [|x ts IH]; [contradiction|]. destruct I as [<- |I]; cbn [filter].
  - destruct (in_dec N.eq_dec (j_thread (te_job x)) dead) as [A|A]; [contradiction|]. destruct (in_dec N.eq_dec (j_thread (te_job x)) (j_thread (te_job x) :: dead)) as [B|B]; [|exfalso; apply B; now left].
    cbn [length]. specialize (LE ts). lia.
  - specialize (IH I). destruct (in_dec N.eq_dec (j_thread (te_job x)) dead) as [A|A], (in_dec N.eq_dec (j_thread (te_job x)) (j_thread (te_job t) :: dead)) as [B|B]; cbn [length]; try lia. exfalso. apply B. now right.
Qed.
Definition onto (g : setting) (k' k : state) : Prop := (exists x, state_step g x k k') /\ k' <> k.
Lemma ended_acc g e s l d : Acc (onto g) (Ended e s l d).
Proof. constructor. intros k' [(x & S) _]. exfalso. inversion S as [| | | | | | | | |k NE H1 E1 E2 |k NE H1 E1 E2| |]; subst; eapply NE; reflexivity. Qed.
Lemma running_acc g L : (forall p, goes g L p -> Acc (fun p' p => process_step g p p' /\ p' <> p) p) -> forall p dead c, goes g L p -> Acc (onto g) (Running p dead c).
Proof.
  intros AP p dead c H. pose proof (AP _ H) as A. revert dead c H. induction A as [p _ IH].
  assert (X : forall n dead c, ((match c with Waiting => 1 | _ => 0 end) + undead dead (p_testers p) = n)%nat -> goes g L p -> Acc (onto g) (Running p dead c)); [|intros dead c H; eapply X; eauto].
  induction n as [n IHn] using lt_wf_ind. intros dead c E H. constructor. intros k' [(x & S) NK].
  inversion S as [| | |p0 p' dead0 c0 SP K R E1 E2|p0 dead0 c0 t y rest RU I T N E1 E2|p0 dead0 G J R Q A|p0 dead0 G J R Q A|p0 dead0 c0 J A R|p0 dead0 c0 b G|k NE Hh|k NE Hh|p0 dead0 c0 j js MS Cs|p0 dead0 c0 MS]; subst; try (unfold ended_as; apply ended_acc).
  - apply IH; [split; [exact SP|congruence]|eapply go_step; eauto].
  - eapply IHn; [|reflexivity|exact H]. pose proof (undead_less dead _ _ I N). lia.
  - eapply IHn; [|reflexivity|exact H]. lia.
  - eapply IHn; [|reflexivity|exact H]. lia.
Qed.
Theorem outage_bounded iter w here path name threads duration number record pod d g fs k :
  reaches g fs (command_start iter w here path name threads duration number record pod d) k -> Acc (fun k' k => (exists x, state_step g x k k') /\ k' <> k) k.
Proof.
  intros R. destruct here as [h|]; [|apply outage_nowhere in R; destruct R as [-> _]; apply ended_acc]. apply inside in R.
  assert (AR : forall p dead c, goes g (launch iter w (root_of path h) name threads duration number record pod d) p -> Acc (onto g) (Running p dead c)) by (apply running_acc; intros p; apply process_bounded).
  destruct k as [did todo next|p dead c|e s l d']; [|destruct R as [R _]; now apply AR|apply ended_acc]. destruct R as (-> & _ & _).
  revert did. induction todo as [|e todo IH]; intros did; constructor; intros k' [(x & S) NK]; inversion S; subst; try (unfold ended_as; apply ended_acc).
  - apply AR. constructor.
  - apply IH.
Qed.
(** a step that is no trouble is always possible before the end *)
Lemma outage_onward g js0 l0 d0 fs k : (forall p, goes g (begin js0 l0 d0) p -> forall t, In t (p_testers p) -> te_phase t <> Hung) ->
  live g (begin js0 l0 d0) l0 fs k -> exists k', state_step g None k k' /\ k' <> k /\ stopped_of k' = stopped_of k.
Proof.
  intros NH V. destruct k as [did [|e todo] next|p dead c|]; [| | |contradiction].
  - exists (Running next [] Waiting). split; [constructor|]. split; [discriminate|]. destruct V as (-> & _). reflexivity.
  - exists (Loading (did ++ [e]) todo next). split; [constructor|]. split; [|reflexivity]. intros [= Q _]. apply (f_equal (@length _)) in Q. rewrite app_length in Q. cbn in Q. lia.
  - destruct V as (H & SA & _ & _ & _ & _ & T). specialize (NH _ H). pose proof (settled_ok_goes _ _ _ _ _ H) as K. destruct K as [F R NS] eqn:EK. clear EK.
    assert (Enough : forall p', process_step g p p' -> less p' p -> p_flag p' = p_flag p -> (forall t, In t (p_testers p) -> In (j_thread (te_job t)) dead -> In t (p_testers p')) ->
      c = Waiting \/ p_reported p' = p_reported p -> exists k', state_step g None (Running p dead c) k' /\ k' <> Running p dead c /\ stopped_of k' = stopped_of (Running p dead c)).
    { intros p' S Le E KE RE. exists (Running p' dead c). split; [now apply st_turn|]. split; [intros [= ->]; exact (less_irrefl _ Le)|]. cbn [stopped_of]. now rewrite E. }
    destruct p as [mp ts flag q mm r l d]. cbn [p_main p_testers p_reported p_flag] in *. destruct mp as [[|j js]| | |b|]; try congruence.
    + eapply Enough; [apply ps_started| |reflexivity|auto|now right]. left. cbn. lia.
    + destruct (te_path (new_tester g j)) as [path|] eqn:E; [destruct (g_creates g path) eqn:C|].
      * eapply Enough; [apply ps_start; intros p' Q; rewrite E in Q; injection Q as <-; exact C| |reflexivity|intros t I _; apply in_or_app; now left|now right]. left. cbn. lia.
      * eapply Enough; [eapply ps_no_file; eauto| |reflexivity|auto|now right]. left. cbn. lia.
      * eapply Enough; [apply ps_start; intros p' Q; rewrite E in Q; discriminate| |reflexivity|intros t I _; apply in_or_app; now left|now right]. left. cbn. lia.
    + assert (SD : forall t, {stilled dead t} + {~ stilled dead t}).
      { intros t. unfold stilled. destruct (Bool.bool_dec (gone t) true), (in_dec N.eq_dec (j_thread (te_job t)) dead); auto. right. tauto. }
      destruct (Forall_dec (stilled dead) SD ts) as [A|A].
      * assert (Done : (g_stat g = true -> r = true \/ c <> Waiting) \/ (g_stat g = true /\ r = false /\ c = Waiting)).
        { destruct (g_stat g); [|left; discriminate]. destruct r; [left; auto|]. destruct c; auto; left; right; discriminate. }
        destruct Done as [Done|(G & -> & ->)].
        -- eexists. split; [apply st_exit; [reflexivity|exact A|exact Done]|]. split; [discriminate|reflexivity].
        -- destruct q as [|rs q].
           ++ eexists. split; [apply st_report; auto|]. split; [discriminate|reflexivity].
           ++ eapply Enough; [apply ps_receive; auto| |reflexivity|auto|now left]. right. split; auto. right. split; auto. unfold rest. cbn. lia.
      * apply neg_Forall_Exists_neg in A; [|exact SD]. apply Exists_exists in A. destruct A as (t & I & NGo). apply in_split in I. destruct I as (ts1 & ts2 & ->).
        assert (O : orderly t) by (apply Forall_elt in F; auto). assert (exists a t', tester_move (g_stat g) flag t = Some (a, t')) as (a & t' & MV).
        { unfold stilled, tester_move, gone in *. destruct (te_todo t); [|eauto]. destruct O as [_ O2]. assert (In t (ts1 ++ t :: ts2)) as I by (apply in_or_app; cbn; auto). specialize (NH _ I).
          destruct (te_phase t); try congruence; try (exfalso; apply NGo; now left); [|eauto]. destruct (j_limit (te_job t)); [eauto|]. exfalso. now apply O2. }
        pose proof (ps_tester g Joining ts1 t ts2 flag q mm r l d a t' eq_refl MV) as S. destruct (step_less _ _ _ (settled_ok_goes _ _ _ _ _ H) S) as [E|Le].
        -- exfalso. injection E as E _. apply app_inv_head in E. injection E as E. rewrite E in MV. destruct (move_less _ _ _ _ _ O MV); lia.
        -- eapply Enough; [exact S|exact Le|reflexivity| |now right]. cbn [p_testers]. intros x Ix D. apply in_app_or in Ix. apply in_or_app. destruct Ix as [Ix|[<- |Ix]]; [now left| |right; now right]. exfalso. apply NGo. now right.
    + eapply Enough; [apply ps_die| |reflexivity|auto|now right]. left. cbn. lia.
    + eexists. split; [eapply st_gone; reflexivity|]. split; [discriminate|reflexivity].
Qed.
Lemma outage_on g js0 l0 d0 fs k : (forall p, goes g (begin js0 l0 d0) p -> forall t, In t (p_testers p) -> te_phase t <> Hung) -> (forall p, goes g (begin js0 l0 d0) p -> NoDup (ids (p_testers p))) ->
  Acc (onto g) k -> live g (begin js0 l0 d0) l0 fs k -> exists b l d', reaches g [] k (Ended (Exit b) (stopped_of k) l d').
Proof.
  intros NH ND A. revert fs. induction A as [k _ IH]. intros fs V. destruct (outage_onward _ _ _ _ _ _ NH V) as (k' & S & NK & E). pose proof (live_step _ _ _ _ _ _ _ (or_intror ND) V S) as P. rewrite app_nil_r in P.
  destruct P as [V'|(e & k0 & -> & C)].
  - destruct (IH k' (conj (ex_intro _ _ S) NK) _ V') as (b & l & d' & R). exists b, l, d'. rewrite <- E. eapply (reaches_trans g [] []); [apply reaches_one; exact S|exact R].
  - assert (XE : exists b, e = Exit b) by (unfold ended_as in S; inversion S; subst; eauto). destruct XE as (b & ->).
    exists b, (log_of k0), (disk_of k0). rewrite <- E. apply reaches_one. exact S.
Qed.
Theorem outage_named_ends iter w h path name threads duration number record pod d g src s1 body fs k :
  loads w (root_of path h) src s1 -> mget name (s_tests src) = Some body -> threads <> 0 ->
  (forall id n s bs, id < threads -> n < share duration number threads -> iterated (g_world g id) body (s_ctx s1) n s bs -> fst (eval_block (g_world g id) body s) <> Diverge) ->
  reaches g fs (command_start iter w (Some h) path (Some name) threads duration number record pod d) k -> (forall e s l d', k <> Ended e s l d') ->
  exists b l d', reaches g [] k (Ended (Exit b) (stopped_of k) l d').
Proof.
  intros Lo M Z ND R NE. pose proof (outage_bounded _ _ _ _ _ _ _ _ _ _ _ _ _ _ R) as A. pose proof (named_start iter w (root_of path h) name threads duration number record pod d src s1 body Lo M Z) as ST.
  apply start_proper in R; [|right; intros p H; rewrite ST in H; eapply named_nodup; eauto]. rewrite ST, begin_log, snd_main in R. destruct R as [V|(e & k0 & -> & _)]; [|exfalso; eapply NE; reflexivity].
  eapply outage_on; [| |exact A|exact V]; [|intros p H; eapply named_nodup; eauto].
  intros p' H' t I PH. destruct (thread_facts _ _ _ _ _ _ _ _ _ _ H' t I) as (th & bs & a & P & (s & IT & FF & SS) & B & _).
  destruct (named_limit _ _ _ _ _ _ _ _ _ _ H' t I) as [_ BB]. destruct (own_pend _ _ _ _ _ _ _ _ _ _ _ H' I) as (_ & EN & _). destruct P as (I1 & I2 & X). rewrite I2, EN in *.
  assert (Y : fst (eval_block (g_world g (j_thread (te_job t))) body s) = Diverge /\ th_number th < share duration number threads).
  { destruct (te_todo t).
    - destruct X as (X1 & _). rewrite X1, PH in SS. destruct SS as [EV ->]. rewrite EV. split; auto. lia.
    - destruct X as (X1 & th' & dn & evs & b & sent & MV & _ & _ & (S1 & _) & _). rewrite X1 in SS. destruct SS as [SS ->]. split; [|lia]. rewrite <- SS. unfold thread_move in MV. rewrite X1, I2 in MV.
      destruct (eval_block _ _ _) as [[v|e| |] s2]; auto; try destruct (ctx_records _); injection MV as <- _; rewrite PH in S1; discriminate. }
  destruct Y as [Y1 Y2]. exact (ND _ _ _ _ BB Y2 IT Y1).
Qed.
Theorem outage_all_ends iter w h path threads duration number record pod d g src s1 fs k :
  loads w (root_of path h) src s1 -> N.of_nat (length (iter (s_tests src))) <= 2 ^ 32 ->
  (forall id name body, nth_error (iter (s_tests src)) (N.to_nat id) = Some (name, body) ->
    fst (eval_block (g_world g id) body (St (Ctx (c_vars (s_ctx s1)) (c_reqs (s_ctx s1)) []) [])) <> Diverge) ->
  reaches g fs (command_start iter w (Some h) path None threads duration number record pod d) k -> (forall e s l d', k <> Ended e s l d') ->
  exists b l d', reaches g [] k (Ended (Exit b) (stopped_of k) l d').
Proof.
  intros Lo Fe ND R NE. pose proof (outage_bounded _ _ _ _ _ _ _ _ _ _ _ _ _ _ R) as A. pose proof (launch_all iter w (root_of path h) threads duration number record pod d src s1 Lo) as ST.
  apply start_proper in R; [|right; intros p H; rewrite ST in H; eapply all_nodup; eauto]. rewrite ST, begin_log, snd_main in R. destruct R as [V|(e & k0 & -> & _)]; [|exfalso; eapply NE; reflexivity].
  eapply outage_on; [| |exact A|exact V]; [|intros p H; eapply all_nodup; eauto].
  intros p' H' t I PH. destruct (all_once _ _ _ _ _ _ Fe _ H' _ I) as (_ & EN & NT). destruct (once_goes _ _ _ _ _ _ Fe _ H') as [W _]. rewrite Forall_forall in W. destruct (W _ I) as [(P & _)|(o & s2 & evs & b & EV & P & _)]; [congruence|].
  rewrite PH in P. destruct o; try discriminate. apply (ND _ _ _ NT). rewrite <- EN. unfold first_state in EV. rewrite EV. reflexivity.
Qed.
