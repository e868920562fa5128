(** The process of the [test] command, from its start *)
From Verif Require Import SpecProcess WriterProofs TestProofs TextProofs ValueProofs EvaluatorTop RunProofs RunTop SendProofs ProcessProofs ProcessRun ProcessTop ProcessEnds ProcessOnce AvroProofs RecordProofs ContainerProofs RunMore.
From Coq Require Import Permutation Lia.
Open Scope N_scope.

Lemma pod_some (record : bool) (pod q : str) : (if record then Some pod else None) = Some q -> record = true /\ q = pod.
Proof. destruct record; [intros [= <-]; auto|discriminate]. Qed.

(** ** a named test *)
Theorem named_log iter w root name threads duration number record pod d g src s1 body p :
  loads w root src s1 -> mget name (s_tests src) = Some body -> threads <> 0 ->
  goes g (launch iter w root (Some name) threads duration number record pod d) p ->
  (exists l, p_log p = map (pair Main) (s_trace s1) ++ l /\ Forall (fun x => fst x <> Main) l) /\
  (forall id, threads <= id -> events_of (Tester id) (p_log p) = []) /\
  (forall id, id < threads -> exists bs, under_way (g_world g id) body (s_ctx s1) (share duration number threads) bs (events_of (Tester id) (p_log p))).
Proof.
  intros L M Z H. rewrite (launch_named _ _ _ _ _ _ _ _ _ _ _ _ _ L M) in H. apply N.eqb_neq in Z. rewrite Z in H. split; [|split].
  - exact (so_log _ _ _ _ _ (sound_named _ _ _ _ _ _ _ _ _ _ H)).
  - intros id. apply (events_none _ _ _ _ _ _ _ _ _ _ _ H).
  - intros id B. destruct (thread_view _ _ _ _ _ _ _ _ _ _ _ H B) as (bs & U & _). eauto.
Qed.
Theorem named_files iter w root name threads duration number pod d g src s1 body p id :
  loads w root src s1 -> mget name (s_tests src) = Some body -> threads <> 0 -> id < threads ->
  goes g (launch iter w root (Some name) threads duration number true pod d) p ->
  let path := record_path g pod id in let own := events_of (Tester id) (p_log p) in
  (mget path (p_disk p) = mget path d /\ own = [] /\ p_main p <> Gone true) \/
  exists bs, under_way (g_world g id) body (s_ctx s1) (share duration number threads) bs own /\ mget path (p_disk p) = Some (recorded g path name id bs).
Proof.
  intros L M Z B H. rewrite (launch_named _ _ _ _ _ _ _ _ _ _ _ _ _ L M) in H. apply N.eqb_neq in Z. rewrite Z in H. cbv zeta.
  destruct (thread_view _ _ _ _ _ _ _ _ _ _ _ H B) as (bs & U & F). destruct (F pod eq_refl) as [E|(_ & E & D & G & _)]; [right; eauto|left; auto].
Qed.
Theorem named_kept iter w root name threads duration number record pod d g src s1 body p path :
  loads w root src s1 -> mget name (s_tests src) = Some body -> threads <> 0 ->
  goes g (launch iter w root (Some name) threads duration number record pod d) p ->
  (record = true -> forall id, id < threads -> path <> record_path g pod id) -> mget path (p_disk p) = mget path d.
Proof.
  intros L M Z H N. rewrite (launch_named _ _ _ _ _ _ _ _ _ _ _ _ _ L M) in H. apply N.eqb_neq in Z. rewrite Z in H.
  apply (files_kept _ _ _ _ _ _ _ _ _ _ _ H). intros q id Q B. apply pod_some in Q. destruct Q as [R ->]. auto.
Qed.
Theorem named_end iter w root name threads duration number record pod d g src s1 body p :
  loads w root src s1 -> mget name (s_tests src) = Some body -> threads <> 0 ->
  goes g (launch iter w root (Some name) threads duration number record pod d) p -> p_main p = Gone true ->
  exists bss, length bss = N.to_nat threads /\
  (forall id bs, nth_error bss (N.to_nat id) = Some bs ->
    done_with (g_world g id) body (s_ctx s1) (share duration number threads) (negb (p_flag p)) bs (events_of (Tester id) (p_log p)) /\
    (record = true -> mget (record_path g pod id) (p_disk p) = Some (recorded g (record_path g pod id) name id bs))) /\
  (g_stat g = false -> events_of Collector (p_log p) = []) /\
  (g_stat g = true -> (forall ks, Permutation (g_order g ks) ks) -> exists l text, p_log p = l ++ [(Collector, Printed text)] /\ events_of Collector l = [] /\
    stat_report (flat_map samples (List.concat bss)) text).
Proof.
  intros L M Z H G. rewrite (launch_named _ _ _ _ _ _ _ _ _ _ _ _ _ L M) in H. apply N.eqb_neq in Z. rewrite Z in H.
  destruct (process_end _ _ _ _ _ _ _ _ _ _ H G) as (bss & A & B & C). exists bss. split; auto. split; auto. intros id bs N. destruct (B _ _ N) as [D E]. split; auto. intros ->. now apply E.
Qed.
(** the collector says nothing before the threads are done *)
Theorem named_report iter w root name threads duration number record pod d g src s1 body p text :
  loads w root src s1 -> mget name (s_tests src) = Some body -> threads <> 0 ->
  goes g (launch iter w root (Some name) threads duration number record pod d) p ->
  In (Collector, Printed text) (p_log p) -> g_stat g = true /\ exists l, p_log p = l ++ [(Collector, Printed text)] /\ events_of Collector l = [].
Proof.
  intros L M Z H I. rewrite (launch_named _ _ _ _ _ _ _ _ _ _ _ _ _ L M) in H. apply N.eqb_neq in Z. rewrite Z in H.
  assert (Q : forall l x, In (Collector, x) l -> events_of Collector l <> []).
  { clear. intros l x. induction l as [|y l IH]; [contradiction|]. intros [->|I]; cbn; [discriminate|]. destruct (who_dec (fst y) Collector); [discriminate|]. apply IH, I. }
  destruct (named_last _ _ _ _ _ _ _ _ _ _ H) as [W _]. unfold last_word in W. destruct (p_reported p); [|now apply Q in I].
  destruct W as (G & _ & (l & E & N) & _). split; auto. exists l. rewrite E in I |- *. apply in_app_or in I. destruct I as [I|[I|[]]]; [now apply Q in I|]. injection I as ->. auto.
Qed.

(** ** every test once *)
Theorem all_log iter w root threads duration number record pod d g src s1 p :
  loads w root src s1 -> N.of_nat (length (iter (s_tests src))) <= 2 ^ 32 ->
  goes g (launch iter w root None threads duration number record pod d) p ->
  (exists l, p_log p = map (pair Main) (s_trace s1) ++ l /\ Forall (fun x => fst x <> Main) l) /\
  (forall id, N.of_nat (length (iter (s_tests src))) <= id -> events_of (Tester id) (p_log p) = []) /\
  (events_of Collector (p_log p) = [] \/ g_stat g = true /\ events_of Collector (p_log p) = [Printed []]) /\
  (p_main p = Gone true -> events_of Collector (p_log p) = if g_stat g then [Printed []] else []).
Proof.
  intros L F H. rewrite (launch_all _ _ _ _ _ _ _ _ _ _ _ L) in H. split; [|split; [|split]].
  - exact (so_log _ _ _ _ _ (sound_all _ _ _ _ _ _ F _ H)).
  - intros id B. destruct (none_once _ _ _ _ _ _ F _ id H) as [E _]; auto. intros I. apply in_map_iff in I. destruct I as (t & <- & I). destruct (all_once _ _ _ _ _ _ F _ H _ I) as (_ & _ & N).
    assert (N.to_nat (j_thread (te_job t)) < length (iter (s_tests src)))%nat by (apply nth_error_Some; congruence). lia.
  - destruct (once_goes _ _ _ _ _ _ F _ H) as [_ (_ & _ & Q)]. destruct (settled_ok_goes _ _ _ _ _ H) as [_ R _]. rewrite Q. destruct (p_reported p); [|auto]. right. split; auto. now apply R.
  - intros G. destruct (once_goes _ _ _ _ _ _ F _ H) as [_ (_ & _ & Q)]. rewrite Q. destruct (exit_from _ _ _ H) as [_ ->]; auto. discriminate.
Qed.
Theorem all_threads iter w root threads duration number record pod d g src s1 p id name body :
  loads w root src s1 -> N.of_nat (length (iter (s_tests src))) <= 2 ^ 32 -> nth_error (iter (s_tests src)) (N.to_nat id) = Some (name, body) ->
  goes g (launch iter w root None threads duration number record pod d) p ->
  exists o s2, eval_block (g_world g id) body (St (Ctx (c_vars (s_ctx s1)) (c_reqs (s_ctx s1)) []) []) = (o, s2) /\
  let own := events_of (Tester id) (p_log p) in let whole := s_trace s2 ++ afterwards_once (g_world g id) o s2 in
  starts_with own whole /\ (p_main p = Gone true -> own = whole /\ o <> Diverge) /\
  (record = true -> let path := record_path g pod id in
    (own = [] /\ mget path (p_disk p) = mget path d /\ p_main p <> Gone true) \/
    (mget path (p_disk p) = Some (recorded g path name id []) /\ (p_main p = Gone true -> o = Panic)) \/
    (own = whole /\ o <> Panic /\ o <> Diverge /\ mget path (p_disk p) = Some (recorded g path name id [c_recs (s_ctx s2)]))).
Proof.
  intros L F N H. rewrite (launch_all _ _ _ _ _ _ _ _ _ _ _ L) in H. destruct (once_view _ _ _ _ _ _ F _ _ _ _ H N) as (o & s2 & E & A & B & C). exists o, s2. split; auto. cbv zeta. split; auto. split; auto.
  intros ->. destruct (C pod eq_refl) as [(X1 & X2 & X3 & _)|[X|(X & Y & V)]]; auto. right. right. split; auto. destruct (Y o eq_refl). auto.
Qed.
Theorem all_kept iter w root threads duration number record pod d g src s1 p path :
  loads w root src s1 -> N.of_nat (length (iter (s_tests src))) <= 2 ^ 32 ->
  goes g (launch iter w root None threads duration number record pod d) p ->
  (record = true -> forall id, id < N.of_nat (length (iter (s_tests src))) -> path <> record_path g pod id) -> mget path (p_disk p) = mget path d.
Proof.
  intros L F H N. rewrite (launch_all _ _ _ _ _ _ _ _ _ _ _ L) in H. apply (so_disk _ _ _ _ _ (sound_all _ _ _ _ _ _ F _ H)). intros t I E. destruct (all_once _ _ _ _ _ _ F _ H _ I) as ((_ & TP) & _ & NT).
  rewrite TP in E. destruct record; [|discriminate]. injection E as <-. apply (N eq_refl (j_thread (te_job t))); auto.
  assert (N.to_nat (j_thread (te_job t)) < length (iter (s_tests src)))%nat by (apply nth_error_Some; congruence). lia.
Qed.

(** ** exit status *)
Theorem exit_unreadable iter w root name threads duration number record pod d g p : read_node (fst root) (snd root) = None ->
  goes g (launch iter w root name threads duration number record pod d) p -> p_main p = Gone false /\ p_log p = [] /\ p_disk p = d.
Proof. intros R H. unfold launch in H. rewrite R in H. apply over_stays with (b := false) in H; [subst|reflexivity]. auto. Qed.
Theorem exit_crash iter w root name threads duration number record pod d g p text src s1 : read_node (fst root) (snd root) = Some text -> parse text = Ok src ->
  eval_block w (s_exprs src) (St (Ctx [] (mextend [] (s_requests src)) []) []) = (Panic, s1) ->
  goes g (launch iter w root name threads duration number record pod d) p -> p_main p = Gone false /\ p_log p = map (pair Main) (s_trace s1) /\ p_disk p = d.
Proof.
  intros R P E H. unfold launch in H. rewrite R in H. destruct (lost_setup iter w text threads duration number (if record then Some pod else None) name src _ _ P E) as [Q _]. rewrite (Q eq_refl) in H.
  apply over_stays with (b := false) in H; [subst|reflexivity]. auto.
Qed.
Theorem exit_zero iter w root name threads duration number record pod d g p src s1 body : loads w root src s1 -> mget name (s_tests src) = Some body -> threads = 0 ->
  goes g (launch iter w root (Some name) threads duration number record pod d) p -> p_main p = Gone false /\ p_log p = map (pair Main) (s_trace s1) /\ p_disk p = d.
Proof. intros L M -> H. rewrite (launch_named _ _ _ _ _ _ _ _ _ _ _ _ _ L M) in H. apply over_stays with (b := false) in H; [subst|reflexivity]. auto. Qed.
(** reported mistakes of the sources end in success *)
Theorem exit_syntax iter w root name threads duration number record pod d g p text e : read_node (fst root) (snd root) = Some text -> parse text = Err e ->
  goes g (launch iter w root name threads duration number record pod d) p -> p_main p = Gone true /\ p_log p = [(Main, Printed (perr_text e ++ [10]))] /\ p_disk p = d.
Proof.
  intros R P H. unfold launch in H. rewrite R in H. destruct (bad_source iter w text threads duration number (if record then Some pod else None) name e P) as (s & E & T). rewrite E, T in H.
  apply over_stays with (b := true) in H; [subst|reflexivity]. auto.
Qed.
Theorem exit_setup iter w root name threads duration number record pod d g p text src e s1 : read_node (fst root) (snd root) = Some text -> parse text = Ok src ->
  eval_block w (s_exprs src) (St (Ctx [] (mextend [] (s_requests src)) []) []) = (Err e, s1) ->
  goes g (launch iter w root name threads duration number record pod d) p -> p_main p = Gone true /\ p_log p = map (pair Main) (s_trace s1 ++ [complaint w e]) /\ p_disk p = d.
Proof.
  intros R P E H. unfold launch in H. rewrite R in H. destruct (bad_setup iter w text threads duration number (if record then Some pod else None) name src e s1 P E) as (s & Q & T). rewrite Q, T in H.
  apply over_stays with (b := true) in H; [subst|reflexivity]. auto.
Qed.
Lemma empty_goes g l0 d p : goes g (begin [] l0 d) p -> p_main p <> Gone false /\ p_disk p = d /\ p_testers p = [] /\
  exists l, p_log p = map (pair Main) l0 ++ l /\ (l = [] \/ g_stat g = true /\ l = [(Collector, Printed [])]) /\ (p_main p = Gone true -> l = if g_stat g then [(Collector, Printed [])] else []).
Proof.
  intros H. assert (X : (exists js, p_main p = Starting js) \/ p_main p = Joining \/ p_main p = Gone true).
  { pose proof (sound_goes g [] l0 d ltac:(constructor) ltac:(intros ? ? ? []) p H) as [(rest & J & O) _ _ _ _ _ _]. symmetry in J. apply app_eq_nil in J. destruct J as [_ ->].
    destruct (p_main p) as [js| | |[|]|]; eauto; cbn in O; try contradiction; destruct O as (? & ? & ? & ? & _); discriminate. }
  assert (T : p_testers p = []). { pose proof (sound_goes g [] l0 d ltac:(constructor) ltac:(intros ? ? ? []) p H) as [(rest & J & O) _ _ _ _ _ _]. symmetry in J. apply app_eq_nil in J. destruct J as [J _]. now destruct (p_testers p). }
  split; [destruct X as [(js & ->)|[->| ->]]; discriminate|]. split; [|split; auto].
  - clear X. revert T. remember (begin [] l0 d) as b eqn:B. induction H as [|p p1 p2 H IH S]; subst; [reflexivity|]. intros T. destruct S; cbn [p_testers p_disk] in *; auto; now destruct (app_cons_not_nil _ _ _ (eq_sym T)).
  - assert (Y : exists l, p_log p = map (pair Main) l0 ++ l /\ p_stats p = [] /\ p_queue p = [] /\ l = (if p_reported p then [(Collector, Printed [])] else []) /\ (p_reported p = true -> g_stat g = true)).
    { clear X. revert T. remember (begin [] l0 d) as b eqn:B. induction H as [|p p1 p2 H IH S]; subst; [exists []; repeat split; auto; [now rewrite app_nil_r|discriminate]|]. intros T.
      destruct S as [j js ts flag q mm r l d' C|j js ts flag q mm r l d' pa E C|ts flag q mm r l d'|mp ts1 t ts2 flag q mm r l d' a t' RU MV|ts flag q mm r l d'|ts flag rs q mm l d' G|ts flag mm l d' G A|ts flag q mm r l d' A RE|ts flag q mm r l d'];
        cbn [p_testers p_log p_stats p_queue p_reported] in *; auto.
      - now destruct (app_cons_not_nil _ _ _ (eq_sym T)).
      - now destruct (app_cons_not_nil _ _ _ (eq_sym T)).
      - destruct (IH eq_refl T) as (x & _ & _ & Q & _). discriminate.
      - destruct (IH eq_refl T) as (x & -> & -> & _ & -> & _). exists [(Collector, Printed [])]. rewrite app_nil_r. repeat split; auto. do 4 f_equal.
        unfold show_stats. generalize (g_order g (map fst (@nil (str * stat)))) as ks. induction ks; cbn; auto. }
    destruct Y as (l & E & _ & _ & Q & G). exists l. split; auto. split; [rewrite Q; destruct (p_reported p); auto|]. intros M. destruct (exit_from _ _ _ H) as [_ <-]; auto. discriminate.
Qed.
Theorem exit_unknown iter w root name threads duration number record pod d g p src s1 : loads w root src s1 -> mget name (s_tests src) = None ->
  goes g (launch iter w root (Some name) threads duration number record pod d) p -> p_main p <> Gone false /\ p_disk p = d /\
  exists l, p_log p = map (pair Main) (s_trace s1 ++ [Printed (lit "Test not found: " ++ name ++ [10])]) ++ l /\ (l = [] \/ g_stat g = true /\ l = [(Collector, Printed [])]) /\
    (p_main p = Gone true -> l = if g_stat g then [(Collector, Printed [])] else []).
Proof.
  intros (text & v & R & P & E) M H. unfold launch in H. rewrite R in H. destruct (unknown_test iter w text threads duration number (if record then Some pod else None) name src v s1 P E M) as (s & Q & T). rewrite Q, T in H.
  destruct (empty_goes _ _ _ _ H) as (A & B & _ & C). auto.
Qed.
(** record files that cannot be created *)
Theorem exit_uncreatable iter w root name threads duration number pod d g p src s1 body id : loads w root src s1 -> mget name (s_tests src) = Some body ->
  id < threads -> g_creates g (record_path g pod id) = false ->
  goes g (launch iter w root (Some name) threads duration number true pod d) p ->
  p_main p <> Gone true /\ events_of Collector (p_log p) = [] /\
  forall i, id <= i -> events_of (Tester i) (p_log p) = [] /\ (i < threads -> mget (record_path g pod i) (p_disk p) = mget (record_path g pod i) d).
Proof.
  intros L M Z C H. rewrite (launch_named _ _ _ _ _ _ _ _ _ _ _ _ _ L M) in H. assert (threads =? 0 = false) as Q by lia. rewrite Q in H.
  pose proof (sound_named _ _ _ _ _ _ _ _ _ _ H) as [(rest & J & O) SF MA _ _ NO DI]. rewrite Forall_forall in SF.
  assert (N : forall t, In t (p_testers p) -> j_thread (te_job t) < id).
  { intros t I. pose proof I as I'. apply in_split in I'. destruct I' as (ts1 & ts2 & E). rewrite E, map_app in J. cbn [map] in J. rewrite <- app_assoc in J. cbn [app] in J.
    pose proof (named_index g _ _ _ _ _ _ [] [] _ _ _ J) as X. destruct (N.lt_ge_cases (j_thread (te_job t)) id) as [|G]; auto. exfalso.
    assert (exists t', In t' (p_testers p) /\ j_thread (te_job t') = id) as (t' & I' & E').
    { rewrite map_length in X. destruct (nth_error (p_testers p) (N.to_nat id)) as [t'|] eqn:NT.
      - exists t'. split; [eapply nth_error_In; eauto|]. pose proof (nth_error_split _ _ NT) as (a & b & E1 & E2).
        pose proof (sound_named _ _ _ _ _ _ _ _ _ _ H) as [(rest' & J' & _) _ _ _ _ _ _]. rewrite E1, map_app in J'. cbn [map] in J'. rewrite <- app_assoc in J'. cbn [app] in J'.
        rewrite (named_index g _ _ _ _ _ _ [] [] _ _ _ J'), map_length. lia.
      - apply nth_error_None in NT. rewrite E, app_length in NT. cbn in NT. lia. }
    destruct (own_pend _ _ _ _ _ _ _ _ _ _ _ H I') as (_ & _ & TP). cbn [option_map] in TP. rewrite E' in TP. rewrite (MA _ _ I' TP) in C. discriminate. }
  assert (NI : forall i, id <= i -> ~ In i (ids (p_testers p))) by (intros i B I; apply in_map_iff in I; destruct I as (t & <- & I); specialize (N _ I); lia).
  assert (NJ : p_main p <> Gone true /\ p_main p <> Joining).
  { destruct (tester_of _ _ _ _ _ _ _ _ _ _ _ H Z) as [(t & I & E)|(_ & A & B)]; [|auto]. specialize (N _ I). lia. }
  split; [tauto|]. split.
  - destruct (named_last _ _ _ _ _ _ _ _ _ _ H) as [W R]. unfold last_word in W. destruct (p_reported p); [|auto]. destruct (R eq_refl); tauto.
  - intros i B. split; [auto|]. intros _. apply DI. intros t I E. destruct (own_pend _ _ _ _ _ _ _ _ _ _ _ H I) as (_ & _ & TP). rewrite E in TP. injection TP as TP. apply record_path_inj in TP. specialize (N _ I). lia.
Qed.
Theorem exit_named iter w root name threads duration number record pod d g p src s1 body : loads w root src s1 -> mget name (s_tests src) = Some body -> threads <> 0 ->
  (record = true -> forall id, id < threads -> g_creates g (record_path g pod id) = true) ->
  goes g (launch iter w root (Some name) threads duration number record pod d) p -> p_main p <> Gone false.
Proof.
  intros L M Z C H. rewrite (launch_named _ _ _ _ _ _ _ _ _ _ _ _ _ L M) in H. apply N.eqb_neq in Z. rewrite Z in H.
  pose proof (sound_named _ _ _ _ _ _ _ _ _ _ H) as [(rest & J & O) _ _ _ _ _ _]. intros E. rewrite E in O. cbn in O. destruct O as (j & more & path & -> & F & CF).
  assert (IJ : In j (named_jobs (if record then Some pod else None) (s_ctx s1) name body (share duration number threads) 0 (N.to_nat threads))) by (rewrite J; apply in_or_app; right; now left).
  destruct (named_shape _ _ _ _ _ _ _ IJ) as (_ & _ & _ & _ & JF). unfold file_of in F. rewrite JF in F. destruct record; [|discriminate]. injection F as <-. specialize (C eq_refl (j_thread j)). unfold record_path in C. rewrite C in CF; [discriminate|].
  destruct (named_jobs_shape (Some pod) (s_ctx s1) name body (share duration number threads) (N.to_nat threads) 0) as [T _]. cbv zeta in T. apply (in_map j_thread) in IJ. rewrite T in IJ. apply in_map_iff in IJ. destruct IJ as (i & <- & IJ). apply in_seq in IJ. lia.
Qed.
Theorem exit_all iter w root threads duration number record pod d g p src s1 : loads w root src s1 -> N.of_nat (length (iter (s_tests src))) <= 2 ^ 32 ->
  (record = true -> forall id, id < N.of_nat (length (iter (s_tests src))) -> g_creates g (record_path g pod id) = true) ->
  goes g (launch iter w root None threads duration number record pod d) p -> p_main p <> Gone false.
Proof.
  intros L Fe C H. rewrite (launch_all _ _ _ _ _ _ _ _ _ _ _ L) in H.
  pose proof (sound_all _ _ _ _ _ _ Fe _ H) as [(rest & J & O) _ _ _ _ _ _]. intros E. rewrite E in O. cbn in O. destruct O as (j & more & path & -> & F & CF).
  assert (IJ : In j (all_jobs (if record then Some pod else None) (s_ctx s1) 0 (iter (s_tests src)))) by (rewrite J; apply in_or_app; right; now left).
  destruct (all_shape _ _ _ Fe _ IJ) as (_ & _ & JF & NT). unfold file_of in F. rewrite JF in F. destruct record; [|discriminate]. injection F as <-. specialize (C eq_refl (j_thread j)). unfold record_path in C. rewrite C in CF; [discriminate|].
  assert (N.to_nat (j_thread j) < length (iter (s_tests src)))%nat by (apply nth_error_Some; congruence). lia.
Qed.

(** ** it ends *)
Theorem process_bounded iter w root name threads duration number record pod d g p :
  goes g (launch iter w root name threads duration number record pod d) p -> Acc (fun p' p => process_step g p p' /\ p' <> p) p.
Proof.
  intros H. unfold launch in H.
  assert (Dead : forall b l, goes g (Process (Gone b) [] true [] [] false l d) p -> Acc (fun p' p => process_step g p p' /\ p' <> p) p).
  { intros b l G. apply over_stays with (b := b) in G; [subst|reflexivity]. constructor. intros p' [S _]. exfalso. eapply end_steps; [|exact S]. eexists. reflexivity. }
  destruct (read_node _ _) as [text|]; [|eapply Dead; exact H]. destruct (main_test _ _ _ _ _ _ _ _) as [[[js|]|e| |] s]; try (eapply Dead; exact H).
  - eapply process_finite. exact H.
  - assert (G : forall p', goes g (Process Stuck [] true [] [] false (map (pair Main) (s_trace s)) d) p' -> p' = Process Stuck [] true [] [] false (map (pair Main) (s_trace s)) d).
    { intros p' G. remember (Process Stuck [] true [] [] false (map (pair Main) (s_trace s)) d) as b eqn:B. induction G as [|p0 p1 p2 G IH S]; subst; auto. rewrite IH in S by auto. inversion S as [| | |mp ts1 t ts2 flag q mm r l d' a t' RU MV E1 E2| | | | |]; subst. now destruct ts1. }
    constructor. intros p' [S N]. exfalso. apply N. rewrite (G p) by exact H. apply G. eapply go_step; [exact H|exact S].
Qed.
Theorem named_ends iter w root name threads duration number record pod d g p src s1 body : loads w root src s1 -> mget name (s_tests src) = Some body ->
  (forall id k s bs, id < threads -> k < share duration number threads -> iterated (g_world g id) body (s_ctx s1) k s bs -> fst (eval_block (g_world g id) body s) <> Diverge) ->
  goes g (launch iter w root (Some name) threads duration number record pod d) p ->
  exists p' b, goes g p p' /\ p_main p' = Gone b /\ p_flag p' = p_flag p.
Proof.
  intros L M ND H. pose proof H as H0. rewrite (launch_named _ _ _ _ _ _ _ _ _ _ _ _ _ L M) in H. destruct (threads =? 0) eqn:Z.
  - pose proof H as E. apply over_stays with (b := false) in E; [|reflexivity]. exists p, false. subst. repeat split; constructor.
  - apply (process_ends _ _ _ _ _ H). intros p' G t I PH. pose proof (goes_trans _ _ _ _ H G) as H'. destruct (thread_facts _ _ _ _ _ _ _ _ _ _ H' t I) as (th & bs & a & P & (s & IT & FF & ST) & A & _).
    destruct (named_limit _ _ _ _ _ _ _ _ _ _ H' t I) as [_ B]. destruct (own_pend _ _ _ _ _ _ _ _ _ _ _ H' I) as (_ & EN & _). destruct P as (I1 & I2 & X). rewrite I2, EN in *.
    assert (Y : fst (eval_block (g_world g (j_thread (te_job t))) body s) = Diverge /\ th_number th < share duration number threads).
    { destruct (te_todo t).
      - destruct X as (X1 & _). rewrite X1, PH in ST. destruct ST as [EV ->]. rewrite EV. split; auto. lia.
      - destruct X as (X1 & th' & dn & evs & b & sent & MV & _ & _ & (S1 & _) & _). rewrite X1 in ST. destruct ST as [ST ->]. split; [|lia]. rewrite <- ST. unfold thread_move in MV. rewrite X1, I2 in MV.
        destruct (eval_block _ _ _) as [[v|e| |] s2]; auto; try destruct (ctx_records _); injection MV as <- _; rewrite PH in S1; discriminate. }
    destruct Y as [Y1 Y2]. exact (ND _ _ _ _ B Y2 IT Y1).
Qed.
Theorem all_ends iter w root threads duration number record pod d g p src s1 : loads w root src s1 -> N.of_nat (length (iter (s_tests src))) <= 2 ^ 32 ->
  (forall id name body, nth_error (iter (s_tests src)) (N.to_nat id) = Some (name, body) ->
    fst (eval_block (g_world g id) body (St (Ctx (c_vars (s_ctx s1)) (c_reqs (s_ctx s1)) []) [])) <> Diverge) ->
  goes g (launch iter w root None threads duration number record pod d) p ->
  exists p' b, goes g p p' /\ p_main p' = Gone b /\ p_flag p' = p_flag p.
Proof.
  intros L F ND H. rewrite (launch_all _ _ _ _ _ _ _ _ _ _ _ L) in H. apply (process_ends _ _ _ _ _ H). intros p' G t I PH. pose proof (goes_trans _ _ _ _ H G) as H'.
  destruct (all_once _ _ _ _ _ _ F _ H' _ I) as (_ & EN & NT). destruct (once_goes _ _ _ _ _ _ F _ H') as [W _]. rewrite Forall_forall in W. destruct (W _ I) as [(P & _)|(o & s2 & evs & b & EV & P & _)]; [congruence|].
  rewrite PH in P. destruct o; try discriminate. apply (ND _ _ _ NT). rewrite <- EN. unfold first_state in EV. rewrite EV. reflexivity.
Qed.

(** ** the bytes of a record file *)
Lemma numbered_size name id bs : length (numbered name id bs) = length bs.
Proof. unfold numbered. rewrite map_length, combine_length, seq_length. apply Nat.min_id. Qed.
Theorem recorded_holds g path name id bs : g_accepts g path = [] -> id < 2 ^ 32 -> N.of_nat (length bs) <= 2 ^ 32 -> Forall (Forall SpecWriter.fits) bs -> small (recorded g path name id bs) ->
  exists kvs sync blks, container (recorded g path name id bs) kvs sync blks /\ length blks = length bs /\
  forall k blk, nth_error blks k = Some blk -> exists rs, nth_error bs k = Some rs /\ fst blk = Z.of_nat (length rs) /\
    items Counted record_ty (snd blk) (d_batch name id (N.of_nat k) rs).
Proof.
  intros A I L Fi. unfold recorded. rewrite A. intros Sm.
  assert (Fb : Forall fits_batch (numbered name id bs)).
  { apply Forall_forall. intros b B. apply In_nth_error in B. destruct B as (k & B). pose proof (nth_error_Some (numbered name id bs) k) as K. rewrite B in K. rewrite numbered_size in K.
    assert (k < length bs)%nat by (apply K; discriminate). destruct (numbered_nth _ _ _ _ _ B) as (rs & E & ->). unfold fits_batch. cbn [b_thread b_number b_records].
    split; [lia|]. split; [lia|]. rewrite Forall_forall in Fi. apply Fi. eapply nth_error_In; eauto. }
  change (write_batches (writer_new []) (numbered name id bs)) with (written [] (numbered name id bs)) in *.
  destruct (file_holds _ Fb Sm) as (kvs & sync & blks & Ct & _ & H). exists kvs, sync, blks. split; auto.
  assert (LB : length blks = length bs). { rewrite <- (numbered_size name id bs). clear -H. induction H; cbn; auto. }
  split; [exact LB|]. intros k blk K.
  assert (X : exists b, nth_error (numbered name id bs) k = Some b /\ SpecWriter.holds Counted b blk).
  { clear -H K. revert k K. induction H as [|b blk' l l' Hb H IH]; intros [|k] K; try discriminate; [injection K as <-; exists b; auto|]. apply IH in K. exact K. }
  destruct X as (b & B & HB). destruct (numbered_nth _ _ _ _ _ B) as (rs & E & ->). exists rs. split; auto.
Qed.
