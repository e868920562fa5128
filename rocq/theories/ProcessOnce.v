(** The process when every test runs once *)
From Verif Require Import SpecProcess TestProofs TextProofs ValueProofs EvaluatorTop RunProofs RunTop RunMore SendProofs ProcessProofs ProcessRun ProcessTop ProcessEnds.
From Coq Require Import Permutation Lia.
Open Scope N_scope.

Lemma launch_all iter w root threads duration number record pod d src s1 : loads w root src s1 ->
  launch iter w root None threads duration number record pod d = begin (all_jobs (if record then Some pod else None) (s_ctx s1) 0 (iter (s_tests src))) (s_trace s1) d.
Proof. intros (text & v & R & P & E). unfold launch, main_test, test_command. rewrite R, (setup_ok _ _ _ _ _ P E). reflexivity. Qed.

Section All.
Variables (g : setting) (pod : option str) (c : ctx) (tests : list (str * list expr)) (l0 : list event) (d0 : amap bytes).
Hypothesis few : N.of_nat (length tests) <= 2 ^ 32.
Local Notation js0 := (all_jobs pod c 0 tests).
Local Notation start := (begin js0 l0 d0).

Lemma all_distinct : NoDup (map j_thread js0).
Proof. destruct (all_jobs_shape pod c tests 0) as [T _]; [lia|]. rewrite T. apply (indices_nodup (length tests)). Qed.
Lemma all_shape j : In j js0 -> j_limit j = None /\ j_ctx j = ctx_clone c /\ j_file j = record_name pod (j_thread j) /\ nth_error tests (N.to_nat (j_thread j)) = Some (j_name j, j_body j).
Proof.
  intros I. destruct (all_jobs_shape pod c tests 0) as (T & Q & F); [lia|]. cbv zeta in *. pose proof I as J. rewrite Forall_forall in F. destruct (F _ I) as (A & B & C). split; auto. split; auto. split; auto.
  apply In_nth_error in J. destruct J as (i & J). assert (X : nth_error (map j_thread js0) i = Some (j_thread j)) by now rewrite nth_error_map, J.
  assert (L : (i < length tests)%nat) by (rewrite <- Q, map_length; apply nth_error_Some; congruence).
  rewrite T, nth_error_map, (nth_error_nth' _ 0%nat), seq_nth in X by (rewrite ?seq_length; lia). injection X as X. rewrite <- X.
  assert (Y : nth_error (map (fun j => (j_name j, j_body j)) js0) i = Some (j_name j, j_body j)) by now rewrite nth_error_map, J.
  rewrite Q in Y. rewrite Nat2N.id. exact Y.
Qed.
Lemma all_apart a b p : In a js0 -> In b js0 -> file_of g a = Some p -> file_of g b = Some p -> j_thread a = j_thread b.
Proof.
  intros A B. apply all_shape in A, B. destruct A as (_ & _ & A & _), B as (_ & _ & B & _). unfold file_of. rewrite A, B. unfold record_name.
  destruct pod as [q|]; [|discriminate]. cbn [option_map]. intros [= <-] [= E]. symmetry. apply (record_path_inj g q). exact E.
Qed.
Lemma sound_all p : goes g start p -> sound g js0 l0 d0 p.
Proof. apply sound_goes; [exact all_distinct|exact all_apart]. Qed.

(** ** one thread *)
Definition first_state : st := St (Ctx (c_vars c) (c_reqs c) []) [].
Definition finish (o : out everr value) : phase := match o with Ok _ | Err _ => Finished | Panic => Crashed | Diverge => Hung end.
Definition completes (o : out everr value) : bool := match o with Ok _ | Err _ => true | _ => false end.
Definition at_work (d : amap bytes) (t : tester) : Prop :=
  te_phase t = InBody /\ te_todo t = [] /\ te_state t = first_state /\ seen d t = fresh_file g pod (j_thread (te_job t)) \/
  exists o s2 evs b, eval_block (te_env t) (j_body (te_job t)) first_state = (o, s2) /\ te_phase t = finish o /\
    s_trace (te_state t) = s_trace s2 ++ afterwards_once (te_env t) o s2 /\ te_todo t = map Does evs ++ store b /\ (b <> None -> te_path t <> None) /\
    match b with
    | Some b => completes o = true /\ b = block (c_recs (s_ctx s2)) (j_name (te_job t)) (j_thread (te_job t)) 0 /\ seen d t = fresh_file g pod (j_thread (te_job t))
    | None => seen d t = option_map (fun f => write_batches f (if completes o then [Batch (j_name (te_job t)) (j_thread (te_job t)) 0 (c_recs (s_ctx s2))] else [])) (fresh_file g pod (j_thread (te_job t))) /\ (completes o = true -> te_path t <> None -> evs = [])
    end.
Definition once_job (t : tester) : Prop := j_limit (te_job t) = None /\ te_path t = option_map (fun q => record_path g q (j_thread (te_job t))) pod.
Lemma fresh_path t : once_job t -> te_path t = None -> fresh_file g pod (j_thread (te_job t)) = None.
Proof. intros [_ P] N. rewrite P in N. unfold fresh_file, record_name. now destruct pod. Qed.
Lemma at_work_move d stat flag t a t' : once_job t -> at_work d t -> tester_move stat flag t = Some (a, t') -> at_work (disk_after t a d) t' /\ (forall rs, a <> Some (Sends rs)).
Proof.
  intros OJ W M. pose proof OJ as [JL JP]. unfold tester_move in M. destruct W as [(P & T & S & SE)|(o & s2 & evs & b & EV & P & TR & T & BP & B)].
  - rewrite T, P in M. injection M as <- <-. split; [|discriminate]. cbn [disk_after]. right.
    destruct (iteration_ends stat t) as [(E1 & E2 & E3) E4]. assert (SN : seen d (iteration stat t) = seen d t) by (unfold seen; now rewrite E3, E4).
    rewrite E1, E2, E3, SN, SE. unfold iteration. rewrite S, JL. destruct (eval_block (te_env t) (j_body (te_job t)) first_state) as [o s2] eqn:EV.
    destruct (since_spec _ _ _ _ _ EV) as (tr & TR & ->). cbn in TR. destruct o as [v|e| |]; cbn [ctx_records te_phase te_state te_todo s_trace].
    + exists (Ok v), s2, (tr ++ record_lines (c_recs (s_ctx s2))), (match te_path t with Some _ => Some (block (c_recs (s_ctx s2)) (j_name (te_job t)) (j_thread (te_job t)) 0) | None => None end).
      split; auto. split; auto. split; auto. split; [rewrite map_app, <- app_assoc; do 2 f_equal; unfold puts; now destruct (te_path t)|].
      destruct (te_path t) eqn:TP; [split; [discriminate|]; auto|]. split; [congruence|]. rewrite (fresh_path _ OJ TP). split; [reflexivity|congruence].
    + exists (Err e), s2, (tr ++ complaint (te_env t) e :: record_lines (c_recs (s_ctx s2))), (match te_path t with Some _ => Some (block (c_recs (s_ctx s2)) (j_name (te_job t)) (j_thread (te_job t)) 0) | None => None end).
      split; auto. split; auto. split; auto. split; [rewrite map_app, <- app_assoc; f_equal; cbn [map app]; f_equal; f_equal; unfold puts; now destruct (te_path t)|].
      destruct (te_path t) eqn:TP; [split; [discriminate|]; auto|]. split; [congruence|]. rewrite (fresh_path _ OJ TP). split; [reflexivity|congruence].
    + exists Panic, s2, tr, None. cbn. rewrite !app_nil_r. split; auto. split; auto. split; auto. split; auto. split; [congruence|]. split; [now destruct (fresh_file g pod (j_thread (te_job t)))|discriminate].
    + exists Diverge, s2, tr, None. cbn. rewrite !app_nil_r. split; auto. split; auto. split; auto. split; auto. split; [congruence|]. split; [now destruct (fresh_file g pod (j_thread (te_job t)))|discriminate].
  - destruct evs as [|e evs].
    + destruct b as [b|]; cbn [map store app] in T; rewrite T in M.
      * injection M as <- <-. split; [|discriminate]. right. exists o, s2, [], None. cbn [te_env te_job te_phase te_state te_todo te_path map store app]. split; auto. split; auto. split; auto. split; auto. split; [congruence|].
        destruct B as (CO & -> & SE). rewrite CO. pose proof (seen_store d t (block (c_recs (s_ctx s2)) (j_name (te_job t)) (j_thread (te_job t)) 0)) as SS. unfold seen in SS |- *. cbn [te_path te_accept] in *. rewrite SS. fold (seen d t). rewrite SE.
        split; [|reflexivity]. destruct (fresh_file g pod (j_thread (te_job t))); reflexivity.
      * rewrite P in M. destruct o; discriminate.
    + cbn [map store app] in T. rewrite T in M. injection M as <- <-. split; [|discriminate]. cbn [disk_after]. right. exists o, s2, evs, b. cbn [te_env te_job te_phase te_state te_todo te_path]. split; auto. split; auto. split; auto. split; auto.
      split; [exact BP|]. destruct b; [exact B|]. destruct B as [B1 B2]. split; [exact B1|]. intros C N. specialize (B2 C N). discriminate.
Qed.
Lemma at_work_same d d' t : (forall p, te_path t = Some p -> mget p d' = mget p d) -> at_work d t -> at_work d' t.
Proof. intros H. unfold at_work. now rewrite (seen_same d d' t H). Qed.
Lemma all_once p : goes g start p -> forall t, In t (p_testers p) -> once_job t /\ te_env t = g_world g (j_thread (te_job t)) /\
  nth_error tests (N.to_nat (j_thread (te_job t))) = Some (j_name (te_job t), j_body (te_job t)).
Proof.
  intros H t I. pose proof (sound_all _ H) as [(rest & J & _) SF _ _ _ _ _]. rewrite Forall_forall in SF. destruct (SF _ I) as [A B].
  assert (IJ : In (te_job t) js0) by (rewrite J; apply in_or_app; left; now apply in_map).
  destruct (all_shape _ IJ) as (C & _ & D & E). split; [|auto]. split; auto. rewrite B. unfold file_of. rewrite D. unfold record_name, record_path. now destruct pod.
Qed.
(** ** the process *)
Definition quiet (p : process) : Prop :=
  p_queue p = [] /\ p_stats p = [] /\ events_of Collector (p_log p) = if p_reported p then [Printed []] else [].
Lemma once_goes p : goes g start p -> Forall (at_work (p_disk p)) (p_testers p) /\ quiet p.
Proof.
  remember start as b eqn:B. intros H. induction H as [|p p1 p2 H IH S]; subst; [split; [constructor|repeat split; apply collector_main]|]. destruct (IH eq_refl) as [F (Q1 & Q2 & Q3)]. clear IH.
  pose proof (sound_all _ H) as SO. pose proof (paths_apart g js0 l0 d0 all_distinct all_apart p1) as PA. pose proof (all_once _ H) as AO.
  assert (Sh : show_stats (g_order g) [] = []) by (unfold show_stats; generalize (g_order g (map fst (@nil (str * stat)))) as ks; induction ks; cbn; auto).
  destruct S as [j js ts flag q mm r l d C|j js ts flag q mm r l d pa E C|ts flag q mm r l d|mp ts1 t ts2 flag q mm r l d a t' R M|ts flag q mm r l d|ts flag rs q mm l d G|ts flag mm l d G A|ts flag q mm r l d A R|ts flag q mm r l d];
    unfold quiet; cbn [p_main p_testers p_log p_disk p_flag p_queue p_stats p_reported] in *; auto.
  - split; auto. apply Forall_app. split.
    + rewrite Forall_forall in *. intros x Ix. eapply at_work_same; [|apply F; auto]. intros pa Q. unfold disk_created. destruct (te_path (new_tester g j)) as [pj|] eqn:EP; [|reflexivity].
      apply mget_mset_other. intros ->. pose proof SO as [(rj & J & O) SF _ _ _ _ _]. cbn [p_testers p_main left_over] in *. subst rj. rewrite Forall_forall in SF. destruct (SF _ Ix) as [_ Fx].
      assert (Z : j_thread (te_job x) = j_thread j).
      { apply (all_apart _ _ pj); auto; [rewrite J; apply in_or_app; left; now apply in_map|rewrite J; apply in_or_app; right; now left|rewrite <- Fx; exact Q]. }
      pose proof all_distinct as ND. rewrite J, map_app in ND. cbn [map] in ND. apply NoDup_remove_2 in ND. apply ND. apply in_or_app. left. rewrite <- Z, map_map.
      now apply (in_map (fun x => j_thread (te_job x))).
    + constructor; [|constructor]. pose proof SO as [(rj & J & O) _ _ _ _ _ _]. cbn [p_testers p_main left_over] in *. subst rj.
      destruct (all_shape j) as (A1 & A2 & A3 & _); [rewrite J; apply in_or_app; right; now left|]. left. unfold new_tester, seen, disk_created, fresh_file. cbn [te_phase te_todo te_state te_path te_accept te_job]. rewrite A1, A2, A3.
      repeat split. destruct (record_name pod (j_thread j)) as [n|]; [|reflexivity]. cbn [option_map]. unfold content. rewrite mget_mset_same. now destruct (writer_new _).
  - assert (It : In t (ts1 ++ t :: ts2)) by (apply in_or_app; cbn; auto). destruct (AO _ It) as (OJ & _). apply Forall_app in F. destruct F as [F1 F2]. inversion F2 as [|? ? Ft F3]; subst.
    destruct (at_work_move _ _ _ _ _ _ OJ Ft M) as [W NS].
    assert (Oth : forall x, In x (ts1 ++ ts2) -> at_work d x -> at_work (disk_after t a d) x).
    { intros x Ix. apply at_work_same. intros pa Q. unfold disk_after. destruct a as [[e|b|rs]|]; auto. destruct (te_path t) as [pt|] eqn:EP; auto. apply mget_mset_other. intros ->.
      exact (PA ts1 t ts2 x pt SO eq_refl Ix EP Q). }
    split.
    + rewrite Forall_forall in *. intros x I. apply in_app_or in I. destruct I as [I|[<-|I]]; auto; apply Oth; auto; apply in_or_app; auto.
    + destruct a as [[e|b|rs]|]; auto; [|exfalso; eapply NS; reflexivity]. split; auto. split; auto. rewrite events_app, Q3, events_other by discriminate. apply app_nil_r.
  - discriminate.
  - split; auto. split; auto. split; auto. rewrite events_app, Q3, events_one. cbn [app]. now rewrite Q2, Sh.
Qed.

Lemma own_once p t : goes g start p -> In t (p_testers p) -> events_of (Tester (j_thread (te_job t))) (p_log p) ++ pend (te_todo t) = s_trace (te_state t).
Proof. intros H I. pose proof (sound_all _ H) as [_ _ _ _ OW _ _]. rewrite Forall_forall in OW. auto. Qed.
(** the file of a tester always exists *)
Lemma file_present p : goes g start p -> forall t path, In t (p_testers p) -> te_path t = Some path -> mget path (p_disk p) <> None.
Proof.
  remember start as b eqn:B. intros H. induction H as [|p p1 p2 H IH S]; subst; [contradiction|]. specialize (IH eq_refl).
  destruct S as [j js ts flag q mm r l d C|j js ts flag q mm r l d pa E C|ts flag q mm r l d|mp ts1 t ts2 flag q mm r l d a t' R MV|ts flag q mm r l d|ts flag rs q mm l d G|ts flag mm l d G A|ts flag q mm r l d A R|ts flag q mm r l d];
    cbn [p_testers p_disk] in *; auto.
  - intros t path I P. unfold disk_created. apply in_app_or in I. destruct I as [I|[<-|[]]].
    + destruct (te_path (new_tester g j)) as [p'|]; [|eauto]. rewrite mget_mset. destruct (str_eqb _ _); [discriminate|eauto].
    + rewrite P. rewrite mget_mset_same. discriminate.
  - destruct (move_ends _ _ _ _ _ MV) as (_ & _ & E3). intros x path I P.
    assert (Q : mget path d <> None).
    { apply in_app_or in I. destruct I as [I|[<-|I]]; [apply (IH x)|apply (IH t)|apply (IH x)]; auto; try (apply in_or_app; cbn; auto); congruence. }
    unfold disk_after. destruct a as [[e|b|rs]|]; auto. destruct (te_path t) as [p'|]; auto. rewrite mget_mset. destruct (str_eqb _ _); [discriminate|auto].
Qed.
Lemma seen_once p t q bs : goes g start p -> In t (p_testers p) -> pod = Some q ->
  seen (p_disk p) t = option_map (fun f => write_batches f bs) (fresh_file g pod (j_thread (te_job t))) ->
  mget (record_path g q (j_thread (te_job t))) (p_disk p) = Some (f_data (write_batches (writer_new (g_accepts g (record_path g q (j_thread (te_job t))))) bs)).
Proof.
  intros H I P. destruct (all_once _ H _ I) as ((_ & TP) & _). rewrite P in TP. cbn [option_map] in TP. pose proof (file_present _ H _ _ I TP) as N.
  unfold seen, fresh_file. rewrite TP, P. cbn [record_name option_map]. unfold content. fold (record_path g q (j_thread (te_job t))).
  destruct (mget _ (p_disk p)) as [x|]; [|congruence]. intros [= Q]. rewrite <- Q. reflexivity.
Qed.
Lemma tester_at p id x : goes g start p -> nth_error tests (N.to_nat id) = Some x ->
  (exists t, In t (p_testers p) /\ j_thread (te_job t) = id) \/ (~ In id (ids (p_testers p)) /\ p_main p <> Gone true /\ p_main p <> Joining).
Proof.
  intros H N. destruct (in_dec N.eq_dec id (ids (p_testers p))) as [I|NI].
  - left. apply in_map_iff in I. destruct I as (t & E & I). eauto.
  - right. split; auto. pose proof (sound_all _ H) as [(rest & J & O) _ _ _ _ _ _].
    assert (IJ : In id (map j_thread js0)).
    { destruct (all_jobs_shape pod c tests 0) as [T _]; [lia|]. cbv zeta in T. rewrite T. apply in_map_iff. exists (N.to_nat id). split; [lia|]. apply in_seq. assert (N.to_nat id < length tests)%nat by (apply nth_error_Some; congruence). lia. }
    assert (NR : rest <> []).
    { intros ->. rewrite app_nil_r in J. rewrite J, map_map in IJ. contradiction. }
    destruct (p_main p) as [js| | |[|]|]; cbn in O; split; congruence.
Qed.
Lemma none_once p id : goes g start p -> ~ In id (ids (p_testers p)) -> events_of (Tester id) (p_log p) = [] /\ forall q, pod = Some q -> mget (record_path g q id) (p_disk p) = mget (record_path g q id) d0.
Proof.
  intros H NI. pose proof (sound_all _ H) as [_ _ _ _ _ NO DI]. split; auto. intros q Q. apply DI. intros t I E. destruct (all_once _ H _ I) as ((_ & TP) & _). rewrite E, Q in TP. injection TP as TP. apply record_path_inj in TP.
  apply NI. rewrite TP. now apply (in_map (fun t => j_thread (te_job t))).
Qed.
Theorem once_view p id name body : goes g start p -> nth_error tests (N.to_nat id) = Some (name, body) ->
  exists o s2, eval_block (g_world g id) body (St (Ctx (c_vars c) (c_reqs c) []) []) = (o, s2) /\
  let own := events_of (Tester id) (p_log p) in let whole := s_trace s2 ++ afterwards_once (g_world g id) o s2 in
  starts_with own whole /\ (p_main p = Gone true -> own = whole /\ o <> Diverge) /\
  forall q, pod = Some q -> let path := record_path g q id in
    (own = [] /\ mget path (p_disk p) = mget path d0 /\ p_main p <> Gone true /\ ~ In id (ids (p_testers p))) \/
    (mget path (p_disk p) = Some (recorded g path name id []) /\ (p_main p = Gone true -> o = Panic)) \/
    (own = whole /\ (forall x, o = x -> x <> Panic /\ x <> Diverge) /\ mget path (p_disk p) = Some (recorded g path name id [c_recs (s_ctx s2)])).
Proof.
  intros H N. destruct (eval_block (g_world g id) body (St (Ctx (c_vars c) (c_reqs c) []) [])) as [o s2] eqn:EV. exists o, s2. split; auto. cbv zeta.
  destruct (tester_at _ _ _ H N) as [(t & I & <-)|(NI & G & _)].
  - pose proof (own_once _ _ H I) as OW. destruct (all_once _ H _ I) as (OJ & EN & NT). rewrite NT in N. injection N as <- <-.
    destruct (once_goes _ H) as [F _]. rewrite Forall_forall in F. pose proof (F _ I) as W.
    assert (GT : p_main p = Gone true -> gone t = true). { intros G. destruct (exit_from _ _ _ H) as [AG _]; [discriminate|exact G|]. rewrite Forall_forall in AG. auto. }
    destruct W as [(P & T & S & SE)|(o' & s2' & evs & b & EV' & P & TR & T & BP & B)].
    + assert (NG : p_main p <> Gone true). { intros G. specialize (GT G). unfold gone in GT. rewrite T, P in GT. discriminate. }
      rewrite T, S in OW. cbn in OW. rewrite app_nil_r in OW. rewrite OW. split; [eexists; reflexivity|]. split; [contradiction|]. intros q Q. right. left. split; [|contradiction].
      apply (seen_once _ _ _ [] H I Q). rewrite SE. now destruct (fresh_file g pod (j_thread (te_job t))).
    + rewrite EN in EV'. unfold first_state in EV'. rewrite EV in EV'. injection EV' as <- <-. rewrite EN in TR. rewrite TR, T, pend_app, pend_do in OW.
      assert (PB : pend (store b) = []) by now destruct b. rewrite PB, app_nil_r in OW. rewrite <- OW.
      assert (GE : p_main p = Gone true -> evs = [] /\ b = None /\ o <> Diverge).
      { intros G. specialize (GT G). unfold gone in GT. rewrite T, P in GT. destruct evs; [|discriminate]. destruct b; [discriminate|]. cbn in GT. repeat split; auto. intros ->. discriminate. }
      split; [now exists evs|]. split; [intros G; destruct (GE G) as (-> & _ & D); split; [symmetry; apply app_nil_r|exact D]|]. intros q Q.
      destruct b as [b|].
      * destruct B as (_ & _ & SE). right. left. split; [|intros G; destruct (GE G) as (_ & Z & _); discriminate]. apply (seen_once _ _ _ [] H I Q). rewrite SE. now destruct (fresh_file g pod (j_thread (te_job t))).
      * destruct B as [B BE]. pose proof (seen_once _ _ _ _ H I Q B) as SO. assert (CO : completes o = true \/ completes o = false) by (destruct (completes o); auto). destruct CO as [CO|CO]; rewrite CO in SO.
        -- destruct evs as [|e evs].
           ++ right. right. split; [symmetry; apply app_nil_r|]. split; [intros x <-; now destruct o|exact SO].
           ++ exfalso. destruct OJ as [_ TP]. rewrite Q in TP. specialize (BE CO). rewrite TP in BE. specialize (BE ltac:(discriminate)). discriminate.
        -- right. left. split; [exact SO|]. intros G. destruct (GE G) as (_ & _ & D). destruct o; try discriminate; congruence.
  - destruct (none_once _ _ H NI) as [-> DI]. split; [eexists; reflexivity|]. split; [contradiction|]. intros q Q. left. split; auto.
Qed.
End All.
