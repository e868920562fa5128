(** The command when a thread cannot be started *)
From Verif Require Import SpecOutage TestProofs TextProofs ValueProofs EvaluatorTop RunProofs RunTop RunMore SendProofs ProcessProofs ProcessRun ProcessTop ProcessEnds ProcessOnce ProcessLaunch OutageProofs OutageTop OutageLaunch.
From Coq Require Import Permutation Lia.
Open Scope N_scope.

(** ** the threads that have been started are the first ones *)
Lemma first_ids g js0 l0 d0 p k : map j_thread js0 = map N.of_nat (seq 0 k) -> sound g js0 l0 d0 p ->
  ids (p_testers p) = map N.of_nat (seq 0 (length (p_testers p))) /\ (length (p_testers p) <= k)%nat.
Proof.
  intros T [(rest & J & _) _ _ _ _ _ _]. rewrite J, map_app, map_map in T. unfold ids. pose proof (f_equal (@length _) T) as L. rewrite app_length, !map_length, seq_length in L.
  assert (LE : (length (p_testers p) <= k)%nat) by lia. split; auto. replace k with (length (p_testers p) + (k - length (p_testers p)))%nat in T by lia. rewrite seq_app, map_app in T.
  apply (f_equal (firstn (length (p_testers p)))) in T. rewrite !firstn_app, !map_length, seq_length, !Nat.sub_diag, !firstn_O, !app_nil_r in T.
  rewrite !firstn_all2 in T by (rewrite ?map_length, ?seq_length; auto). exact T.
Qed.
Lemma in_ids n id : In id (map N.of_nat (seq 0 n)) <-> id < N.of_nat n.
Proof.
  rewrite in_map_iff. split; [intros (i & <- & I); apply in_seq in I; lia|]. intros L. exists (N.to_nat id). split; [lia|]. apply in_seq. lia.
Qed.
(** the one that fails, if it is one of them, is the next *)
Lemma next_id g js0 l0 d0 p k j js : map j_thread js0 = map N.of_nat (seq 0 k) -> sound g js0 l0 d0 (also g j js p) ->
  ids (p_testers p) = map N.of_nat (seq 0 (length (p_testers p))) -> j_thread j = N.of_nat (length (p_testers p)) /\ (length (p_testers p) < k)%nat.
Proof.
  intros T S I. destruct (first_ids _ _ _ _ _ _ T S) as [E L]. cbn [also p_testers] in *. rewrite app_length in *. cbn [length] in *. split; [|lia].
  unfold ids in *. rewrite map_app in E. rewrite I in E. rewrite seq_app, map_app in E. apply app_inv_head in E. now injection E.
Qed.

Section Failing.
Variables (g : setting) (js0 : list job) (l0 : list event) (d0 : amap bytes) (k : nat).
Hypothesis numbered_jobs : map j_thread js0 = map N.of_nat (seq 0 k).
Hypothesis Hsound : forall p, goes g (begin js0 l0 d0) p -> sound g js0 l0 d0 p.
(** the last state: [n] threads run, and the file of the next one may be there *)
Lemma unstarted_state fs e k0 : closed g (begin js0 l0 d0) l0 fs e k0 -> In Unstarted fs ->
  e = Exit false /\ exists fs' p dead n, fs = fs' ++ [Unstarted] /\ ~ In Unstarted fs' /\ (n <= k)%nat /\ goes g (begin js0 l0 d0) p /\ (exists js, p_main p = Starting js) /\ k0 = Running p dead Waiting /\
    (forall id, In id (ids (p_testers p)) -> id <= N.of_nat n /\ id < N.of_nat k) /\ (forall id, id < N.of_nat n -> In id (ids (p_testers p))) /\
    (forall id, N.of_nat n <= id -> events_of (Tester id) (p_log p) = []) /\
    ((n < k)%nat -> exists t, In t (p_testers p) /\ j_thread (te_job t) = N.of_nat n /\ forall path, te_path t = Some path -> mget path (p_disk p) = Some (f_data (writer_new (g_accepts g path)))).
Proof.
  intros C I.
  assert (WA : forall fs p dead c js, live g (begin js0 l0 d0) l0 fs (Running p dead c) -> p_main p = Starting js -> c = Waiting).
  { intros f p dead c js V M. destruct V as (_ & _ & _ & _ & _ & _ & T). destruct c; auto; destruct T as (_ & _ & J & _); congruence. }
  destruct C as [did t todo next V|fs p dead c V J A R|fs p dead c b V G|fs st0 V NH|fs st0 V NH|fs p dead c j js V M Cr|fs p dead c V M].
  - destruct I as [I|[]]; discriminate.
  - destruct V as (_ & _ & _ & _ & (_ & V) & _). contradiction.
  - destruct V as (_ & _ & _ & _ & (_ & V) & _). contradiction.
  - apply in_app_or in I. destruct I as [I|[I|[]]]; [|discriminate]. destruct st0; [destruct V as (_ & _ & ->)|destruct V as (_ & _ & _ & _ & (_ & V) & _)|]; contradiction.
  - apply in_app_or in I. destruct I as [I|[I|[]]]; [|discriminate]. destruct st0; [destruct V as (_ & _ & ->)|destruct V as (_ & _ & _ & _ & (_ & V) & _)|]; contradiction.
  - split; auto. pose proof (WA _ _ _ _ _ V M) as ->. pose proof (live_also _ _ _ _ _ _ _ _ _ V M Cr) as V'. destruct V as (H & _ & _ & _ & (_ & NU) & _). destruct V' as (H' & _).
    pose proof (Hsound _ H) as S. pose proof (Hsound _ H') as S'. destruct (first_ids _ _ _ _ _ _ numbered_jobs S) as [E L]. destruct (next_id _ _ _ _ _ _ _ _ numbered_jobs S' E) as [JT LT].
    exists fs, (also g j js p), dead, (length (p_testers p)). split; auto. split; auto. split; auto. split; auto. split; [eexists; reflexivity|]. split; auto.
    assert (EI : ids (p_testers (also g j js p)) = ids (p_testers p) ++ [N.of_nat (length (p_testers p))]) by (unfold ids; cbn [also p_testers]; rewrite map_app; cbn; now rewrite JT).
    split; [|split; [|split]].
    + intros id Q. rewrite EI, E in Q. apply in_app_or in Q. destruct Q as [Q|[<- |[]]]; [apply in_ids in Q; lia|lia].
    + intros id Q. rewrite EI, E. apply in_or_app. left. now apply in_ids.
    + intros id Q. cbn [also p_log]. apply (so_none _ _ _ _ _ S). rewrite E, in_ids. lia.
    + intros _. exists (new_tester g j). split; [apply in_or_app; right; now left|]. split; [exact JT|]. intros path P. cbn [also p_disk]. unfold disk_created. rewrite P. apply mget_mset_same.
  - split; auto. pose proof (WA _ _ _ _ _ V M) as ->. destruct V as (H & _ & _ & _ & (_ & NU) & _). pose proof (Hsound _ H) as S. destruct (first_ids _ _ _ _ _ _ numbered_jobs S) as [E L].
    assert (LK : length (p_testers p) = k).
    { destruct S as [(rest & J & O) _ _ _ _ _ _]. rewrite M in O. cbn in O. subst rest. rewrite app_nil_r in J. apply (f_equal (@length _)) in numbered_jobs. rewrite J, !map_length, seq_length in numbered_jobs. exact numbered_jobs. }
    exists fs, p, dead, k. split; auto. split; auto. split; auto. split; auto. split; [eauto|]. split; auto. rewrite LK in E. split; [|split; [|split]].
    + intros id Q. rewrite E, in_ids in Q. lia.
    + intros id Q. rewrite E. now apply in_ids.
    + intros id Q. apply (so_none _ _ _ _ _ S). rewrite E, in_ids. lia.
    + lia.
Qed.
End Failing.

Lemma starting_flag g js0 l0 d0 p : goes g (begin js0 l0 d0) p -> (exists js, p_main p = Starting js) -> p_flag p = true /\ p_reported p = false.
Proof.
  remember (begin js0 l0 d0) as b eqn:B. intros H. induction H as [|p p1 p2 H IH S]; subst; [auto|]. specialize (IH eq_refl).
  destruct S; cbn [p_main p_flag p_reported] in *; intros (js' & E); try discriminate; try (apply IH; eauto).
Qed.
Lemma neither l : Forall (fun x => fst x <> Main) l -> events_of Collector l = [] -> Forall (fun x => fst x <> Main /\ fst x <> Collector) l.
Proof.
  induction l as [|[x e] l IH]; intros F E; [constructor|]. inversion F as [|? ? F1 F2]; subst. cbn [fst] in *. destruct x as [|i|]; [congruence| |discriminate].
  constructor; [split; discriminate|]. apply IH; [exact F2|exact E].
Qed.

(** ** a named test *)
Theorem outage_unstarted_named iter w h path name threads duration number record pod d g src s1 body fs k :
  loads w (root_of path h) src s1 -> mget name (s_tests src) = Some body -> threads <> 0 ->
  reaches g fs (command_start iter w (Some h) path (Some name) threads duration number record pod d) k -> In Unstarted fs ->
  exists fs' n l d', fs = fs' ++ [Unstarted] /\ ~ In Unstarted fs' /\ k = Ended (Exit false) false l d' /\ n <= threads /\
  (exists l', l = map (pair Main) (s_trace s1) ++ l' /\ Forall (fun x => fst x <> Main /\ fst x <> Collector) l') /\
  (forall id, id < n -> exists bs, under_way (g_world g id) body (s_ctx s1) (share duration number threads) bs (events_of (Tester id) l) /\
    (record = true -> mget (record_path g pod id) d' = Some (recorded g (record_path g pod id) name id bs))) /\
  (forall id, n <= id -> events_of (Tester id) l = []) /\
  (record = true -> n < threads -> mget (record_path g pod n) d' = Some (recorded g (record_path g pod n) name n [])) /\
  (forall file, (record = true -> forall id, id <= n -> id < threads -> file <> record_path g pod id) -> mget file d' = mget file d).
Proof.
  intros Lo M Z R I. pose proof (named_start iter w (root_of path h) name threads duration number record pod d src s1 body Lo M Z) as ST.
  apply start_proper in R; [|right; intros p H; rewrite ST in H; eapply named_nodup; eauto]. rewrite ST in R. rewrite begin_log, snd_main in R.
  destruct R as [V|(e & k0 & -> & C)]; [exfalso; destruct k; [destruct V as (_ & _ & ->)|destruct V as (_ & _ & _ & _ & (_ & V) & _)|]; contradiction|].
  assert (NJ : map j_thread (named_jobs (if record then Some pod else None) (s_ctx s1) name body (share duration number threads) 0 (N.to_nat threads)) = map N.of_nat (seq 0 (N.to_nat threads))).
  { destruct (named_jobs_shape (if record then Some pod else None) (s_ctx s1) name body (share duration number threads) (N.to_nat threads) 0) as [T _]. cbv zeta in T. rewrite T. apply map_ext. intros i. apply N.add_0_l. }
  destruct (unstarted_state g _ _ _ _ NJ (fun p H => sound_named _ _ _ _ _ _ _ _ _ _ H) _ _ _ C I) as (-> & fs' & p & dead & n & FE & NF & Ln & H & SM & -> & I1 & I2 & I3 & I4).
  destruct (starting_flag _ _ _ _ _ H SM) as [FL RP]. pose proof (sound_named _ _ _ _ _ _ _ _ _ _ H) as SD.
  exists fs', (N.of_nat n), (p_log p), (p_disk p). split; auto. split; auto. split; [unfold ended_as; cbn [stopped_of log_of disk_of]; now rewrite FL|]. split; [lia|].
  split; [|split; [|split; [|split]]]; auto.
  - destruct (so_log _ _ _ _ _ SD) as (l & EL & F). exists l. split; auto. destruct (named_last _ _ _ _ _ _ _ _ _ _ H) as [LW _]. unfold last_word in LW. rewrite RP, EL, events_app in LW. apply app_eq_nil in LW. destruct LW as [_ LW].
    now apply neither.
  - intros id B. assert (BT : id < threads) by lia. destruct (thread_view _ _ _ _ _ _ _ _ _ _ _ H BT) as (bs & U & F). exists bs. split; auto. intros ->. destruct (F pod eq_refl) as [X|(_ & _ & _ & _ & X)]; auto. exfalso. auto.
  - intros -> B. destruct I4 as (t & It & E & PA); [lia|]. destruct (own_pend _ _ _ _ _ _ _ _ _ _ _ H It) as (_ & _ & TP). cbn [option_map] in TP. rewrite E in TP. exact (PA _ TP).
  - intros file N. apply (so_disk _ _ _ _ _ SD). intros t It E. destruct (own_pend _ _ _ _ _ _ _ _ _ _ _ H It) as (_ & _ & TP). rewrite E in TP. destruct record; [|discriminate]. injection TP as TP.
    destruct (I1 (j_thread (te_job t))) as [B1 B2]; [now apply (in_map (fun x => j_thread (te_job x)))|]. rewrite N2Nat.id in B2. exact (N eq_refl _ B1 B2 TP).
Qed.
(** ** every test once *)
Theorem outage_unstarted_all iter w h path threads duration number record pod d g src s1 fs k :
  loads w (root_of path h) src s1 -> N.of_nat (length (iter (s_tests src))) <= 2 ^ 32 ->
  reaches g fs (command_start iter w (Some h) path None threads duration number record pod d) k -> In Unstarted fs ->
  exists fs' n l d', fs = fs' ++ [Unstarted] /\ ~ In Unstarted fs' /\ k = Ended (Exit false) false l d' /\ n <= N.of_nat (length (iter (s_tests src))) /\
  (exists l', l = map (pair Main) (s_trace s1) ++ l' /\ Forall (fun x => fst x <> Main /\ fst x <> Collector) l') /\
  (forall id, n <= id -> events_of (Tester id) l = []) /\
  (forall id name body, nth_error (iter (s_tests src)) (N.to_nat id) = Some (name, body) -> record = true -> let file := record_path g pod id in
    (id < n -> mget file d' = Some (recorded g file name id []) \/ exists o s2, eval_block (g_world g id) body (St (Ctx (c_vars (s_ctx s1)) (c_reqs (s_ctx s1)) []) []) = (o, s2) /\
      events_of (Tester id) l = s_trace s2 ++ afterwards_once (g_world g id) o s2 /\ mget file d' = Some (recorded g file name id [c_recs (s_ctx s2)])) /\
    (id = n -> mget file d' = Some (recorded g file name n []))) /\
  (forall file, (record = true -> forall id, id <= n -> id < N.of_nat (length (iter (s_tests src))) -> file <> record_path g pod id) -> mget file d' = mget file d).
Proof.
  intros Lo Fe R I. pose proof (launch_all iter w (root_of path h) threads duration number record pod d src s1 Lo) as ST.
  apply start_proper in R; [|right; intros p H; rewrite ST in H; eapply all_nodup; eauto]. rewrite ST in R. rewrite begin_log, snd_main in R.
  destruct R as [V|(e & k0 & -> & C)]; [exfalso; destruct k; [destruct V as (_ & _ & ->)|destruct V as (_ & _ & _ & _ & (_ & V) & _)|]; contradiction|].
  assert (NJ : map j_thread (all_jobs (if record then Some pod else None) (s_ctx s1) 0 (iter (s_tests src))) = map N.of_nat (seq 0 (length (iter (s_tests src))))).
  { destruct (all_jobs_shape (if record then Some pod else None) (s_ctx s1) (iter (s_tests src)) 0) as [T _]; [lia|]. cbv zeta in T. rewrite T. apply map_ext. intros i. apply N.add_0_l. }
  destruct (unstarted_state g _ _ _ _ NJ (fun p H => sound_all _ _ _ _ _ _ Fe _ H) _ _ _ C I) as (-> & fs' & p & dead & n & FE & NF & Ln & H & SM & -> & I1 & I2 & I3 & I4).
  destruct (starting_flag _ _ _ _ _ H SM) as [FL RP]. pose proof (sound_all _ _ _ _ _ _ Fe _ H) as SD. destruct (once_goes _ _ _ _ _ _ Fe _ H) as [_ (_ & Q2 & Q3)]. rewrite RP in Q3.
  exists fs', (N.of_nat n), (p_log p), (p_disk p). split; auto. split; auto. split; [unfold ended_as; cbn [stopped_of log_of disk_of]; now rewrite FL|]. split; [lia|].
  split; [|split; [|split]]; auto.
  - destruct (so_log _ _ _ _ _ SD) as (l & EL & F). exists l. split; auto. rewrite EL, events_app in Q3. apply app_eq_nil in Q3. destruct Q3 as [_ LW].
    now apply neither.
  - intros id name body N ->. cbv zeta. split.
    + intros B. destruct (once_view _ _ _ _ _ _ Fe _ _ _ _ H N) as (o & s2 & EV & _ & _ & F). destruct (F pod eq_refl) as [(_ & _ & _ & X)|[(X & _)|(X & _ & Y)]]; [exfalso; auto|now left|right; eauto].
    + intros ->. destruct I4 as (t & It & E & PA); [assert (N.to_nat (N.of_nat n) < length (iter (s_tests src)))%nat by (apply nth_error_Some; congruence); lia|].
      destruct (all_once _ _ _ _ _ _ Fe _ H _ It) as ((_ & TP) & _). cbn [option_map] in TP. rewrite E in TP. exact (PA _ TP).
  - intros file N. apply (so_disk _ _ _ _ _ SD). intros t It E. destruct (all_once _ _ _ _ _ _ Fe _ H _ It) as ((_ & TP) & _). rewrite E in TP. destruct record; [|discriminate]. injection TP as TP.
    destruct (I1 (j_thread (te_job t))) as [B1 B2]; [now apply (in_map (fun x => j_thread (te_job x)))|]. exact (N eq_refl _ B1 B2 TP).
Qed.
