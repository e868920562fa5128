(** Recording and statistics change nothing else *)
From Coq Require Import Lia.
From Verif Require Import TextProofs RunProofs ProcessProofs SpecAside.
Open Scope N_scope.

Definition visible (a : action) : bool := match a with Does _ => true | _ => false end.
Definition job_aside (j j' : job) : Prop :=
  j_thread j' = j_thread j /\ j_file j' = None /\ j_name j' = j_name j /\ j_body j' = j_body j /\ j_limit j' = j_limit j /\ j_ctx j' = j_ctx j.
Definition tester_aside (t t' : tester) : Prop :=
  job_aside (te_job t) (te_job t') /\ te_env t' = te_env t /\ te_path t' = None /\ te_number t' = te_number t /\ te_state t' = te_state t /\ te_phase t' = te_phase t /\ te_todo t' = filter visible (te_todo t).
Inductive main_aside : main_phase -> main_phase -> Prop :=
| ma_starting js js' : Forall2 job_aside js js' -> main_aside (Starting js) (Starting js')
| ma_joining : main_aside Joining Joining
| ma_gone b : main_aside (Gone b) (Gone b)
| ma_stuck : main_aside Stuck Stuck.
Inductive main_failing (g : setting) : main_phase -> main_phase -> Prop :=
| mf_as m m' : main_aside m m' -> main_failing g m m'
| mf_no_file path js : g_creates g path = false -> main_failing g Aborting (Starting js)
| mf_died path js : g_creates g path = false -> main_failing g (Gone false) (Starting js).
(** the silent process has no statistics and leaves the disk alone *)
Definition rest_aside (d : amap bytes) (p p' : process) : Prop :=
  Forall2 tester_aside (p_testers p) (p_testers p') /\ p_flag p' = p_flag p /\ p_reported p' = false /\ p_log p' = tests_part (p_log p) /\ p_disk p' = d.
Lemma tests_app a b : tests_part (a ++ b) = tests_part a ++ tests_part b.
Proof. apply filter_app. Qed.
Lemma visible_does l : filter visible (map Does l) = map Does l.
Proof. induction l; cbn; congruence. Qed.
Lemma new_aside g g' j j' : same_worlds g g' -> job_aside j j' -> tester_aside (new_tester g j) (new_tester g' j').
Proof. intros W J. pose proof J as (A & B & C & D & E & F). unfold new_tester. rewrite B, A, E, F. repeat split; auto. cbn. apply W. Qed.
Lemma iteration_aside stat t t' : tester_aside t t' -> tester_aside (iteration stat t) (iteration false t').
Proof.
  intros (J & E & P & N & S & Ph & Td). pose proof J as (A & B & C & D & L & F). unfold iteration. rewrite E, D, S, L, N.
  assert (Pu : forall rs k, puts t' rs k = []) by (intros; unfold puts; now rewrite P).
  assert (Pv : forall rs k, filter visible (puts t rs k) = []) by (intros; unfold puts; now destruct (te_path t)).
  assert (Sn : forall s s1, filter visible (since s s1) = since s s1) by (intros; apply visible_does).
  destruct (eval_block _ _ _) as [[v|e| |] s1]; destruct (j_limit (te_job t)); cbn [ctx_records]; (split; [exact J|]); cbn [te_env te_path te_number te_state te_phase te_todo]; repeat split; auto;
    rewrite ?filter_app, ?Sn, ?visible_does, ?Pu, ?Pv; try reflexivity.
  now destruct stat.
Qed.
(** a move of a thread is the same move on the other side, or none *)
Lemma move_aside stat flag t t' a u : tester_aside t t' -> tester_move stat flag t = Some (a, u) ->
  (exists u', tester_move false flag t' = Some (a, u') /\ tester_aside u u' /\ match a with Some x => visible x = true | None => True end) \/
  (exists x, a = Some x /\ visible x = false /\ tester_aside u t').
Proof.
  intros L. pose proof L as (J & E & P & N & S & Ph & Td). pose proof J as (A & B & C & D & Li & F). unfold tester_move. destruct (te_todo t) as [|x rest] eqn:T.
  - cbn [filter] in Td. rewrite Td, Ph, Li, N. destruct (te_phase t) eqn:Pt; try discriminate.
    + destruct (j_limit (te_job t)) as [m|]; [|discriminate]. intros H. injection H as <- <-. left. eexists. split; [reflexivity|]. split; [|exact I]. split; [exact J|]. repeat split; auto.
    + intros H. injection H as <- <-. left. eexists. split; [reflexivity|]. split; [|exact I]. now apply iteration_aside.
  - intros H. injection H as <- <-. cbn [filter] in Td. destruct (visible x) eqn:V.
    + left. rewrite Td. eexists. split; [reflexivity|]. split; auto. split; [exact J|]. repeat split; auto.
    + right. exists x. split; auto. split; auto. split; [exact J|]. repeat split; auto.
Qed.
Lemma gone_aside t t' : tester_aside t t' -> gone t = true -> gone t' = true.
Proof. intros (_ & _ & _ & _ & _ & Ph & Td). unfold gone. rewrite Ph, Td. destruct (te_todo t); [auto|discriminate]. Qed.
Lemma no_path t' a d : te_path t' = None -> disk_after t' a d = d.
Proof. intros P. unfold disk_after. rewrite P. destruct a as [[]|]; auto. Qed.
Lemma running_failing g m m' : main_failing g m m' -> running m = true -> running m' = true.
Proof. destruct 1 as [m m' M| |]; auto. now destruct M. Qed.

(** ** from a run with recording or statistics to one without *)
Lemma step_aside g g' d p q p' : same_worlds g g' -> g_stat g' = false -> main_failing g (p_main p) (p_main p') -> rest_aside d p p' -> process_step g p q ->
  exists q', goes g' p' q' /\ main_failing g (p_main q) (p_main q') /\ rest_aside d q q'.
Proof.
  intros W St M (T & F & R & Lg & D) S. destruct p' as [m' ts' flag' qu' st' rp' lg' dk']. cbn [p_main p_testers p_flag p_reported p_log p_disk] in *. subst rp' dk'.
  assert (Stay : forall mq q, main_failing g mq m' -> rest_aside d q (Process m' ts' flag' qu' st' false lg' d) -> exists q', goes g' (Process m' ts' flag' qu' st' false lg' d) q' /\ main_failing g mq (p_main q') /\ rest_aside d q q') by (intros; eexists; split; [constructor|auto]).
  assert (Go : forall mq q q', process_step g' (Process m' ts' flag' qu' st' false lg' d) q' -> main_failing g mq (p_main q') -> rest_aside d q q' -> exists q', goes g' (Process m' ts' flag' qu' st' false lg' d) q' /\ main_failing g mq (p_main q') /\ rest_aside d q q') by (intros; eexists; split; [econstructor; [constructor|eassumption]|auto]).
  destruct S; cbn [p_main p_testers p_flag p_reported p_log p_disk] in *; subst flag'.
  - inversion M as [? ? M1| |]; subst. inversion M1 as [? ? X| | |]; subst. inversion X as [|? j' ? js1 J Js]; subst. pose proof (new_aside g g' _ _ W J) as N.
    assert (P : te_path (new_tester g' j') = None) by apply N.
    eapply Go; [apply ps_start; rewrite P; discriminate|constructor; now constructor|]. cbn [p_main]. rewrite P. repeat split; cbn; auto. apply Forall2_app; auto.
  - inversion M as [? ? M1| |]; subst. inversion M1 as [? ? X| | |]; subst. apply Stay; [eapply mf_no_file; eauto|]. repeat split; auto.
  - inversion M as [? ? M1| |]; subst. inversion M1 as [? ? X| | |]; subst. inversion X; subst. eapply Go; [apply ps_started|constructor; constructor|]. repeat split; auto.
  - apply Forall2_app_inv_l in T. destruct T as (us1 & us & T1 & T2 & ->). inversion T2 as [|? u ? us2 Tu T3]; subst.
    match goal with H : tester_move _ _ _ = _ |- _ => destruct (move_aside _ _ _ _ _ _ Tu H) as [(u' & Mu & Lu & V)|(x & -> & V & Lu)] end.
    + eapply Go; [apply ps_tester; [eapply running_failing; eauto|rewrite St; exact Mu]|exact M|]. rewrite (no_path u) by apply Tu. pose proof Tu as ((A & _) & _).
      repeat split; cbn [p_testers p_flag p_reported p_log p_disk]; auto; [apply Forall2_app; auto|].
      rewrite A. destruct a as [[e| |]|]; auto. now rewrite tests_app.
    + apply Stay; [exact M|]. destruct x; try discriminate V; repeat split; cbn [p_testers p_flag p_reported p_log p_disk]; auto; apply Forall2_app; auto.
  - inversion M as [? ? M1| |]; subst. inversion M1; subst. eapply Go; [apply ps_stop|exact M|]. repeat split; auto.
  - apply Stay; [exact M|]. repeat split; auto.
  - apply Stay; [exact M|]. repeat split; cbn [p_log]; auto. rewrite tests_app. cbn. now rewrite app_nil_r.
  - inversion M as [? ? M1| |]; subst. inversion M1; subst. eapply Go; [apply ps_exit; [|auto]|constructor; constructor|].
    + clear -T H. induction T as [|t t' ts ts' A _ IH]; inversion H; subst; constructor; auto. eapply gone_aside; eauto.
    + repeat split; auto.
  - inversion M as [? ? M1| |]; subst; [inversion M1|]. apply Stay; [eapply mf_died; eauto|]. repeat split; auto.
Qed.
Lemma goes_aside g g' d p q : same_worlds g g' -> g_stat g' = false -> goes g p q -> forall p', main_failing g (p_main p) (p_main p') -> rest_aside d p p' ->
  exists q', goes g' p' q' /\ main_failing g (p_main q) (p_main q') /\ rest_aside d q q'.
Proof.
  intros W St. induction 1 as [|p p1 p2 G IH S]; intros p' M L; [exists p'; split; [constructor|auto]|].
  destruct (IH p' M L) as (q1 & G1 & M1 & L1). destruct (step_aside g g' d _ _ _ W St M1 L1 S) as (q2 & G2 & M2 & L2). exists q2. split; auto. eapply goes_trans; eauto.
Qed.

(** ** from a run without them to one with recording or statistics *)
Definition on_aside (p p' : process) : Prop :=
  main_aside (p_main p) (p_main p') /\ Forall2 tester_aside (p_testers p) (p_testers p') /\ p_flag p' = p_flag p /\
  (match p_main p with Gone _ => True | _ => p_reported p = false end) /\ p_log p' = tests_part (p_log p).
(** a thread can always get its writes and sends over with *)
Lemma drained g mp ts1 ts2 flag m r l : running mp = true -> forall todo t q d, te_todo t = todo ->
  exists t1 q1 d1, goes g (Process mp (ts1 ++ t :: ts2) flag q m r l d) (Process mp (ts1 ++ t1 :: ts2) flag q1 m r l d1) /\
    (forall t', tester_aside t t' -> tester_aside t1 t') /\ match te_todo t1 with [] => True | x :: _ => visible x = true end.
Proof.
  intros R. induction todo as [|x rest IH]; intros t q d T.
  - exists t, q, d. split; [constructor|]. split; auto. now rewrite T.
  - destruct (visible x) eqn:V; [exists t, q, d; split; [constructor|]; split; auto; now rewrite T|].
    assert (S : exists t1, tester_move (g_stat g) flag t = Some (Some x, t1) /\ te_todo t1 = rest /\ forall t', tester_aside t t' -> tester_aside t1 t').
    { unfold tester_move. rewrite T. eexists. split; [reflexivity|]. split; [reflexivity|]. intros t' (J & E & P & N & Sn & Ph & Td). split; [exact J|]. rewrite T in Td. cbn [filter] in Td. rewrite V in Td. repeat split; auto. }
    destruct S as (t1 & M & T1 & K).
    destruct (IH t1 (match x with Sends rs => q ++ [rs] | _ => q end) (disk_after t (Some x) d) T1) as (t2 & q2 & d2 & G & K2 & V2).
    exists t2, q2, d2. split; [|split; auto]. eapply goes_trans; [|exact G]. eapply go_step; [constructor|].
    pose proof (ps_tester g mp ts1 t ts2 flag q m r l d _ _ R M) as S. destruct x; try discriminate V; exact S.
Qed.
Lemma all_drained g flag m r l ts' : Forall (fun t => gone t = true) ts' -> forall ts, Forall2 tester_aside ts ts' -> forall ts0 q d,
  exists ts1 q1 d1, goes g (Process Joining (ts0 ++ ts) flag q m r l d) (Process Joining (ts0 ++ ts1) flag q1 m r l d1) /\
    Forall2 tester_aside ts1 ts' /\ Forall (fun t => gone t = true) ts1.
Proof.
  induction 1 as [|t' ts' Gt _ IH]; intros ts T ts0 q d; inversion T as [|t ? tt ? Tt T1]; subst; [exists [], q, d; split; constructor; constructor|].
  destruct (drained g Joining ts0 tt flag m r l eq_refl _ t q d eq_refl) as (t1 & q1 & d1 & G1 & K & V).
  destruct (IH tt T1 (ts0 ++ [t1]) q1 d1) as (ts1 & q2 & d2 & G2 & T2 & Gs). rewrite <- !app_assoc in G2. cbn [app] in G2.
  exists (t1 :: ts1), q2, d2. split; [eapply goes_trans; eauto|]. split; [constructor; auto|]. constructor; auto.
  specialize (K t' Tt). destruct K as (_ & _ & _ & _ & _ & Ph & Td). unfold gone in *. rewrite Ph, Td in Gt. destruct (te_todo t1) as [|x rest]; [exact Gt|]. cbn [filter] in Gt. rewrite V in Gt. destruct (te_phase t1); discriminate Gt.
Qed.
Lemma all_received g ts flag l d : g_stat g = true -> forall q m, exists m1, goes g (Process Joining ts flag q m false l d) (Process Joining ts flag [] m1 false l d).
Proof.
  intros S. induction q as [|rs q IH]; intros m; [exists m; constructor|]. destruct (IH (stats_add_records m rs)) as (m1 & G). exists m1. eapply goes_trans; [|exact G]. eapply go_step; [constructor|]. now apply ps_receive.
Qed.
Lemma back_aside g g' p' q' p : same_worlds g g' -> g_stat g' = false -> (forall path, g_creates g path = true) -> on_aside p p' -> process_step g' p' q' ->
  exists q, goes g p q /\ on_aside q q'.
Proof.
  intros W St Cr (M & T & F & R & Lg) S. destruct p as [mp ts flag q m r l d]. cbn [p_main p_testers p_flag p_reported p_log p_disk] in *.
  destruct S; cbn [p_main p_testers p_flag p_reported p_log p_disk] in *; subst.
  - inversion M as [? ? X| | |]; subst. inversion X as [|j0 ? js2 ? J Js]; subst. eexists. split; [eapply go_step; [constructor|apply ps_start; auto]|].
    repeat split; cbn [p_main p_testers p_flag p_reported p_log]; auto; [now constructor|]. apply Forall2_app; auto. constructor; auto. now apply new_aside.
  - inversion M as [? ? X| | |]; subst. inversion X as [|j0 ? js2 ? J Js]; subst. destruct J as (_ & N & _). unfold new_tester in H. rewrite N in H. discriminate H.
  - inversion M as [? ? X| | |]; subst. inversion X; subst. eexists. split; [eapply go_step; [constructor|apply ps_started]|]. repeat split; auto. constructor.
  - assert (Ru : running mp = true) by (destruct M; auto). apply Forall2_app_inv_r in T. destruct T as (us1 & us & T1 & T2 & ->). inversion T2 as [|u ? us2 ? Tu T3]; subst.
    destruct (drained g mp us1 us2 flag m r l Ru _ u q d eq_refl) as (u1 & q1 & d1 & G & K & V). specialize (K _ Tu). rewrite St in H0.
    assert (Mv : exists u2, tester_move (g_stat g) flag u1 = Some (a, u2) /\ tester_aside u2 t' /\ match a with Some x => visible x = true | None => True end).
    { pose proof K as (J & E & P & N & Sn & Ph & Td). pose proof J as (A & B & C & D & Li & Fc). unfold tester_move in H0 |- *. destruct (te_todo u1) as [|x rest] eqn:X.
      - cbn [filter] in Td. rewrite Td, Ph, Li, N in H0. destruct (te_phase u1) eqn:Pt; try discriminate.
        + destruct (j_limit (te_job u1)) as [b|] eqn:Lb; [|discriminate]. injection H0 as <- <-. eexists. split; [reflexivity|]. split; [|exact I]. split; [exact J|]. repeat split; auto.
        + injection H0 as <- <-. eexists. split; [reflexivity|]. split; [|exact I]. now apply iteration_aside.
      - cbn [filter] in Td. rewrite V in Td. rewrite Td in H0. injection H0 as <- <-. eexists. split; [reflexivity|]. split; auto. split; [exact J|]. repeat split; auto. }
    destruct Mv as (u2 & Mv & Lu & Va). eexists. split; [eapply go_step; [exact G|apply ps_tester; [exact Ru|exact Mv]]|].
    pose proof K as ((A & _) & _). repeat split; cbn [p_main p_testers p_flag p_reported p_log]; auto; [apply Forall2_app; auto|].
    rewrite A. destruct a as [[e| |]|]; auto; try discriminate Va. now rewrite tests_app.
  - inversion M; subst. eexists. split; [eapply go_step; [constructor|apply ps_stop]|]. repeat split; auto.
  - congruence.
  - congruence.
  - inversion M; subst. cbn in R. subst r. destruct (all_drained g flag m false l _ H ts T [] q d) as (ts1 & q1 & d1 & G & T1 & Gs). cbn [app] in G.
    destruct (g_stat g) eqn:Sg.
    + destruct (all_received g ts1 flag l d1 Sg q1 m) as (m1 & G1). eexists. split.
      * eapply goes_trans; [exact G|]. eapply goes_trans; [exact G1|]. eapply go_step; [eapply go_step; [constructor|apply ps_report; auto]|apply ps_exit; auto].
        eapply Forall_impl; [|exact Gs]. auto.
      * repeat split; cbn [p_main p_testers p_flag p_reported p_log]; auto; [constructor|]. rewrite tests_app. cbn. now rewrite app_nil_r.
    + eexists. split; [eapply go_step; [exact G|apply ps_exit; auto]|]. repeat split; auto. constructor.
  - inversion M.
Qed.
Lemma goes_back g g' p' q' : same_worlds g g' -> g_stat g' = false -> (forall path, g_creates g path = true) -> goes g' p' q' -> forall p, on_aside p p' -> exists q, goes g p q /\ on_aside q q'.
Proof.
  intros W St Cr. induction 1 as [p0|p1 p2 p3 G IH S]; intros p L; [exists p; split; [constructor|auto]|].
  destruct (IH p L) as (q1 & G1 & L1). destruct (back_aside g g' _ _ _ W St Cr L1 S) as (q2 & G2 & L2). exists q2. split; auto. eapply goes_trans; eauto.
Qed.

(** ** the start *)
Lemma named_aside pod c name body k : forall n id, Forall2 job_aside (named_jobs pod c name body k id n) (named_jobs None c name body k id n).
Proof. induction n; intros; cbn; constructor; auto. repeat split. Qed.
Lemma all_aside pod c : forall tests id, Forall2 job_aside (all_jobs pod c id tests) (all_jobs None c id tests).
Proof. induction tests as [|[a b] ts IH]; intros; cbn; constructor; auto. repeat split. Qed.
Lemma main_test_aside iter w text name threads duration number pod :
  snd (main_test iter w text name threads duration number pod) = snd (main_test iter w text name threads duration number None) /\
  match fst (main_test iter w text name threads duration number pod), fst (main_test iter w text name threads duration number None) with
  | Ok (Some js), Ok (Some js') => Forall2 job_aside js js'
  | Ok None, Ok None => True | Err _, Err _ => True | Panic, Panic => True | Diverge, Diverge => True
  | _, _ => False
  end.
Proof.
  unfold main_test, test_command. destruct (test_setup w text) as [[[[tests c]|]|e| |] s]; cbn; auto.
  destruct name as [name|]; [|split; auto; apply all_aside]. destruct (mget name tests) as [body|]; cbn; auto.
  destruct (maximun_of _ threads); cbn; auto. split; auto. apply named_aside.
Qed.
Lemma tests_main l : tests_part (map (pair Main) l) = map (pair Main) l.
Proof. induction l as [|x l IH]; [reflexivity|]. cbn [map]. unfold tests_part in *. cbn [filter fst]. now rewrite IH. Qed.
Lemma launch_aside iter w root name threads duration number record pod pod' d d' :
  let p := launch iter w root name threads duration number record pod d in
  let p' := launch iter w root name threads duration number false pod' d' in
  main_aside (p_main p) (p_main p') /\ p_reported p = false /\ rest_aside d' p p'.
Proof.
  cbv zeta. unfold launch. destruct (read_node (fst root) (snd root)) as [text|]; [|repeat split; constructor].
  pose proof (main_test_aside iter w text name threads duration number (if record then Some pod else None)) as [A B].
  destruct (main_test iter w text name threads duration number (if record then Some pod else None)) as [o s]. destruct (main_test iter w text name threads duration number None) as [o' s']. cbn [fst snd] in A, B. subst s'.
  destruct o as [[js|]|e| |], o' as [[js'|]|e'| |]; try contradiction B; cbn [p_main p_reported]; (split; [constructor; auto|]); (split; [auto|]); repeat split; cbn; auto; now rewrite tests_main.
Qed.

(** ** the theorems *)
Theorem aside_off g g' iter w root name threads duration number record pod pod' d d' p : same_worlds g g' -> g_stat g' = false ->
  goes g (launch iter w root name threads duration number record pod d) p ->
  exists p', goes g' (launch iter w root name threads duration number false pod' d') p' /\ p_log p' = tests_part (p_log p) /\ p_flag p' = p_flag p /\ p_disk p' = d' /\
    ((forall path, g_creates g path = true) -> forall b, p_main p = Gone b -> p_main p' = Gone b).
Proof.
  intros W St G. pose proof (launch_aside iter w root name threads duration number record pod pod' d d') as (M & _ & L).
  destruct (goes_aside g g' d' _ _ W St G _ (mf_as g _ _ M) L) as (p' & G1 & M1 & T1 & F1 & R1 & L1 & D1).
  exists p'. repeat split; auto. intros Cr b E. rewrite E in M1. inversion M1 as [? ? X| |? ? X]; [now inversion X|]. now rewrite Cr in X.
Qed.
Theorem aside_on g g' iter w root name threads duration number record pod pod' d d' p' : same_worlds g g' -> g_stat g' = false -> (forall path, g_creates g path = true) ->
  goes g' (launch iter w root name threads duration number false pod' d') p' ->
  exists p, goes g (launch iter w root name threads duration number record pod d) p /\ tests_part (p_log p) = p_log p' /\ p_flag p = p_flag p' /\ (forall b, p_main p' = Gone b -> p_main p = Gone b).
Proof.
  intros W St Cr G. pose proof (launch_aside iter w root name threads duration number record pod pod' d d') as (M & R & T & F & _ & Lg & _).
  destruct (goes_back g g' _ _ W St Cr G (launch iter w root name threads duration number record pod d)) as (p & G1 & M1 & T1 & F1 & R1 & L1).
  - split; auto. split; auto. split; auto. split; auto. destruct (p_main _); auto.
  - exists p. repeat split; auto. intros b E. rewrite E in M1. now inversion M1.
Qed.
Theorem aside_any g1 g2 iter w root name threads duration number record1 record2 pod1 pod2 d1 d2 p1 : same_worlds g1 g2 -> (forall path, g_creates g2 path = true) ->
  goes g1 (launch iter w root name threads duration number record1 pod1 d1) p1 ->
  exists p2, goes g2 (launch iter w root name threads duration number record2 pod2 d2) p2 /\ tests_part (p_log p2) = tests_part (p_log p1) /\ p_flag p2 = p_flag p1 /\
    ((forall path, g_creates g1 path = true) -> forall b, p_main p1 = Gone b -> p_main p2 = Gone b).
Proof.
  intros W Cr G. set (g0 := Setting false (g_dir g1) (g_creates g1) (g_accepts g1) (g_world g1) (g_order g1) (g_heeds g1)).
  assert (W1 : same_worlds g1 g0) by (intros id; reflexivity). assert (W2 : same_worlds g2 g0) by (intros id; symmetry; apply W).
  destruct (aside_off g1 g0 _ _ _ _ _ _ _ _ _ pod1 _ d1 _ W1 eq_refl G) as (p0 & G0 & L0 & F0 & _ & M0).
  destruct (aside_on g2 g0 _ _ _ _ _ _ _ record2 pod2 pod1 d2 _ _ W2 eq_refl Cr G0) as (p2 & G2 & L2 & F2 & M2).
  exists p2. split; auto. split; [congruence|]. split; [congruence|]. auto.
Qed.
(** without recording no run touches a file, nor fails once it has started its threads *)
Definition fileless (d : amap bytes) (p : process) : Prop :=
  p_disk p = d /\ Forall (fun t => te_path t = None) (p_testers p) /\ match p_main p with Starting js => Forall (fun j => j_file j = None) js | Aborting => False | _ => True end.
Lemma move_path stat flag t a u : tester_move stat flag t = Some (a, u) -> te_path u = te_path t.
Proof.
  unfold tester_move. destruct (te_todo t); [|intros H; injection H as _ <-; reflexivity]. destruct (te_phase t); try discriminate.
  - destruct (j_limit (te_job t)); [|discriminate]. intros H. injection H as _ <-. reflexivity.
  - intros H. injection H as _ <-. unfold iteration. destruct (eval_block _ _ _) as [[v|e| |] s]; destruct (j_limit (te_job t)); reflexivity.
Qed.
Theorem unrecorded g iter w root name threads duration number pod d p : goes g (launch iter w root name threads duration number false pod d) p ->
  p_disk p = d /\ (p_main p = Gone false -> p_main (launch iter w root name threads duration number false pod d) = Gone false).
Proof.
  set (p0 := launch iter w root name threads duration number false pod d).
  assert (F0 : fileless d p0).
  { pose proof (launch_aside iter w root name threads duration number false pod pod d d) as (M & _ & T & _ & _ & _ & D). fold p0 in M, T, D. split; auto. split.
    - clear -T. induction T as [|t t' ts ts' (_ & _ & P & _) _ IH]; constructor; auto.
    - destruct (p_main p0) as [js| | | |]; auto; inversion M as [? ? J| | |]. assert (X : forall a b, Forall2 job_aside a b -> Forall (fun j => j_file j = None) b) by (induction 1 as [|x y a b (_ & P & _) _ IH]; constructor; auto). exact (X _ _ J). }
  clearbody p0. intros G.
  assert (K : fileless d p /\ (p_main p = Gone false -> p_main p0 = Gone false)).
  { induction G as [q|q q1 q2 G IH S]; [auto|]. destruct (IH F0) as ((D & P & M) & E). destruct S; cbn [p_disk p_testers p_main] in *; unfold fileless; cbn [p_disk p_testers p_main].
    - inversion M as [|? ? A B]; subst. assert (N : te_path (new_tester g j) = None) by (unfold new_tester; rewrite A; reflexivity). rewrite N. repeat split; auto; [apply Forall_app; auto|discriminate].
    - inversion M as [|? ? A B]; subst. unfold new_tester in H. rewrite A in H. discriminate H.
    - repeat split; auto. discriminate.
    - apply Forall_app in P. destruct P as [P1 P2]. inversion P2 as [|? ? P3 P4]; subst. rewrite (no_path t) by auto. repeat split; auto. apply Forall_app. split; auto. constructor; auto. rewrite (move_path _ _ _ _ _ H0). auto.
    - auto.
    - auto.
    - auto.
    - repeat split; auto. discriminate.
    - contradiction. }
  destruct K as ((D & _) & E). auto.
Qed.
