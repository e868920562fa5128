(** How long answers take changes nothing but durations *)
From Coq Require Import Lia.
From Verif Require Import TextProofs SyntaxProofs EvaluatorProofs EvaluatorTop ConnectProofs DurationProofs RunProofs ProcessProofs AsideProofs ShuffleProofs CausalProofs SpecProcess SpecPace.
Open Scope N_scope.

(** ** the evaluator *)
Definition same_record (r r' : record) : Prop := r_name r = r_name r' /\ r_asserts r = r_asserts r'.
Record paced_st (s s' : st) : Prop := {
  pc_vars : c_vars (s_ctx s) = c_vars (s_ctx s');
  pc_reqs : c_reqs (s_ctx s) = c_reqs (s_ctx s');
  pc_recs : Forall2 same_record (c_recs (s_ctx s)) (c_recs (s_ctx s'));
  pc_trace : Forall2 same_event_but_duration (s_trace s) (s_trace s')
}.
Lemma event_same e : same_event_but_duration e e.
Proof. destruct e; cbn; auto. now left. Qed.
Lemma events_same l : Forall2 same_event_but_duration l l.
Proof. induction l; constructor; auto using event_same. Qed.
Lemma messages_same l l' : Forall2 same_event_but_duration l l' -> messages l = messages l'.
Proof. induction 1 as [|e e' l l' E _ IH]; [reflexivity|]. destruct e, e'; cbn in *; try contradiction; subst; unfold messages in *; cbn [flat_map]; now rewrite IH. Qed.
Definition paced {A} (m m' : evm A) : Prop := forall s s', paced_st s s' -> fst (m s) = fst (m' s') /\ paced_st (snd (m s)) (snd (m' s')).
Section Paces.
Variables (h : host) (prepare : list part -> bool) (net1 net2 : list event -> str -> exchange).
Notation w1 := (Env h prepare net1).
Notation w2 := (Env h prepare net2).
Hypothesis alike : forall tr tr' m, messages tr = messages tr' -> same_but_times (net1 tr m) (net2 tr' m).
Hypothesis steady1 : forall tr m, ordered (net1 tr m).
Hypothesis steady2 : forall tr m, ordered (net2 tr m).
Lemma paced_ret {A} (a : A) : paced (ret a) (ret a).
Proof. intros s s' R. split; auto. Qed.
Lemma paced_lift {A} (a : out everr A) : paced (lift a) (lift a).
Proof. intros s s' R. split; auto. Qed.
Lemma paced_bind {A B} (m1 m2 : evm A) (k1 k2 : A -> evm B) : paced m1 m2 -> (forall a, paced (k1 a) (k2 a)) -> paced (bind m1 k1) (bind m2 k2).
Proof.
  intros M K s s' R. destruct (M s s' R) as [E R1]. unfold bind. destruct (m1 s) as [o s1], (m2 s') as [o' s1']. cbn [fst snd] in *. subst o'. destruct o as [a|e| |]; [apply K; exact R1|split; auto..].
Qed.
Lemma paced_null m1 m2 : paced m1 m2 -> paced (or_null m1) (or_null m2).
Proof. intros M s s' R. destruct (M s s' R) as [E R1]. unfold or_null. destruct (m1 s) as [o s1], (m2 s') as [o' s1']. cbn [fst snd] in *. subst o'. destruct o; split; auto. Qed.
Lemma paced_emit e s s' : paced_st s s' -> paced_st (emit e s) (emit e s').
Proof. intros [A B C D]. split; cbn; auto. apply Forall2_app; auto. constructor; [apply event_same|constructor]. Qed.
Lemma paced_native n vs : paced (native_call h n vs) (native_call h n vs).
Proof.
  intros s s' R. unfold native_call. repeat match goal with |- context [if ?b then _ else _] => destruct b end; try (split; auto; fail).
  - destruct (native_println h vs) as [[v|e| |] t]; split; auto; now apply paced_emit.
  - destruct (native_print h vs) as [[v|e| |] t]; split; auto; now apply paced_emit.
Qed.
Section Calls.
Variables c1 c2 : str -> list value -> evm value.
Hypothesis HC : forall n vs, paced (c1 n vs) (c2 n vs).
Lemma eval_paced e : paced (eval h c1 e) (eval h c2 e).
Proof.
  induction e using expr_ind2; cbn [eval]; try apply paced_ret.
  - apply paced_bind; [|intros; apply paced_ret]. induction H as [|e es He Hes IH]; [apply paced_ret|].
    apply paced_bind; [exact He|]. intros v. apply paced_bind; [exact IH|]. intros; apply paced_ret.
  - apply paced_bind; [|intros; apply paced_ret]. generalize (@nil (str * value)) as m. induction H as [|[k v] ps [Hk Hv] Hps IH]; intros m; [apply paced_ret|].
    apply paced_bind; [exact Hk|]. intros kv. apply paced_bind; [exact Hv|]. intros vv. apply IH.
  - apply paced_bind; [assumption|]. intros v. apply paced_bind; [assumption|]. intros i. apply paced_lift.
  - apply paced_bind; [assumption|]. intros v. apply paced_lift.
  - intros s s' R. unfold ctx_get. rewrite <- (pc_vars _ _ R). destruct (mget n (c_vars (s_ctx s))); split; auto.
  - apply paced_bind; [assumption|]. intros v s s' [A B C D]. split; [reflexivity|]. split; cbn; auto. now rewrite A.
  - apply paced_bind; [assumption|]. intros v. apply paced_lift.
  - destruct (strict_op h (tkind t)) as [f|].
    + apply paced_bind; [assumption|]. intros l. apply paced_bind; [assumption|]. intros r. apply paced_lift.
    + destruct (tkind t); try apply paced_lift.
      all: apply paced_bind; [assumption|]; intros l; destruct (falsy l); first [assumption|apply paced_ret].
  - exact IHe.
  - apply paced_bind; [assumption|]. intros v.
    destruct (falsy v).
    + clear H. generalize VNull as last. induction H0 as [|x es Hx Hes IH]; intros last; [apply paced_ret|]. apply paced_bind; [exact Hx|]. intros; apply IH.
    + clear H0. generalize VNull as last. induction H as [|x es Hx Hes IH]; intros last; [apply paced_ret|]. apply paced_bind; [exact Hx|]. intros; apply IH.
  - apply paced_bind; [|intros; apply HC]. induction H as [|e es He Hes IH]; [apply paced_ret|].
    apply paced_bind; [exact He|]. intros v. apply paced_bind; [exact IH|]. intros; apply paced_ret.
Qed.
Lemma exprs_paced es : forall last, paced (eval_exprs h c1 last es) (eval_exprs h c2 last es).
Proof. induction es as [|e es IH]; intros last; [apply paced_ret|]. apply paced_bind; [apply eval_paced|]. intros; apply IH. Qed.
End Calls.
Lemma asserts_paced ev1 ev2 l : (forall e, paced (ev1 e) (ev2 e)) -> paced (eval_asserts h ev1 l) (eval_asserts h ev2 l).
Proof.
  intros H. induction l as [|e l IH]; [apply paced_ret|]. destruct e; cbn [eval_asserts]; try exact IH.
  apply paced_bind; [apply paced_null, H|]. intros a. apply paced_bind; [apply paced_null, H|]. intros b. apply paced_bind; [exact IH|]. intros as_. apply paced_ret.
Qed.
Lemma send_paced x x' msg : same_but_times x x' -> ordered x -> ordered x' ->
  exists rq rs er t t', client_send prepare x msg = Ok (rq, rs, t, er) /\ client_send prepare x' msg = Ok (rq, rs, t', er).
Proof.
  intros (C & W & Rp) O O'. destruct (send_outcome prepare x msg O) as (t & E & _). destruct (send_outcome prepare x' msg O') as (t' & E' & _). rewrite E, E', W, Rp.
  destruct (x_connect x) as [d|e], (x_connect x') as [d'|e']; try contradiction; [|subst e']; repeat eexists.
Qed.
Lemma request_paced ev1 ev2 n message asserts : (forall e, paced (ev1 e) (ev2 e)) -> paced (request_call w1 ev1 n message asserts) (request_call w2 ev2 n message asserts).
Proof.
  intros H s s' R. unfold request_call. cbn [e_host e_net e_prepare].
  assert (V : substitute (var_text h (s_ctx s')) message = substitute (var_text h (s_ctx s)) message). { f_equal. unfold var_text, ctx_get. now rewrite (pc_vars _ _ R). }
  rewrite V. set (msg := substitute _ message).
  destruct (send_paced (net1 (s_trace s) msg) (net2 (s_trace s') msg) msg) as (rq & rs & er & t & t' & E & E'); [apply alike, messages_same, R|apply steady1|apply steady2|]. cbv zeta. rewrite E, E'.
  pose proof (paced_emit (Sent msg) s s' R) as R1. destruct (to_map h rs) as [m|e| |]; try (split; [reflexivity|exact R1]).
  assert (R2 : paced_st (St (ctx_from m) (s_trace (emit (Sent msg) s))) (St (ctx_from m) (s_trace (emit (Sent msg) s')))) by (split; cbn [s_ctx s_trace]; auto; [constructor|apply R1]).
  destruct (asserts_paced ev1 ev2 asserts H _ _ R2) as [F R3]. destruct (eval_asserts h ev1 asserts _) as [o sl], (eval_asserts h ev2 asserts _) as [o' sl']. cbn [fst snd] in F, R3. subst o'.
  destruct R as [A B C D], R3 as [A3 B3 C3 D3]. destruct o as [a|e| |]; cbn [fst snd]; (split; [|split; cbn [s_ctx s_trace ctx_push c_vars c_reqs c_recs]; auto]); auto.
  - unfold ctx_into_map. now rewrite A3.
  - apply Forall2_app; auto. constructor; [|constructor]. split; reflexivity.
Qed.
Lemma call_paced d : forall n vs, paced (call_at w1 d n vs) (call_at w2 d n vs).
Proof.
  induction d as [|d IH]; intros n vs s s' R; pose proof (paced_native n vs s s' R) as Nt; cbn [call_at]; unfold ctx_request in *; rewrite <- (pc_reqs _ _ R); destruct (mget n (c_reqs (s_ctx s))) as [[m a]|]; auto.
  apply request_paced; auto. intros; now apply eval_paced.
Qed.
Lemma block_paced_in es : paced (eval_block w1 es) (eval_block w2 es).
Proof. apply exprs_paced. apply call_paced. Qed.
End Paces.
Lemma block_paced w w' es : same_but_pace w w' -> steady w -> steady w' -> paced (eval_block w es) (eval_block w' es).
Proof.
  destruct w as [h pr n1], w' as [h' pr' n2]. intros [[A B] C] S S'. cbn in A, B. subst h' pr'. apply block_paced_in; auto.
Qed.

(** ** test threads *)
Definition paced_action (a a' : action) : Prop :=
  match a, a' with
  | Does e, Does e' => same_event_but_duration e e'
  | Stores _, Stores _ => True
  | Sends rs, Sends rs' => Forall2 same_record rs rs'
  | _, _ => False
  end.
Record paced_tester (t t' : tester) : Prop := {
  pt_job : te_job t = te_job t';
  pt_env : same_but_pace (te_env t) (te_env t') /\ steady (te_env t) /\ steady (te_env t');
  pt_path : te_path t = te_path t';
  pt_number : te_number t = te_number t';
  pt_phase : te_phase t = te_phase t';
  pt_state : paced_st (te_state t) (te_state t');
  pt_todo : Forall2 paced_action (te_todo t) (te_todo t')
}.
Lemma reports_same rs rs' : Forall2 same_record rs rs' -> Forall2 same_event_but_duration (record_lines rs) (record_lines rs').
Proof.
  unfold record_lines. induction 1 as [|r r' rs rs' [N A] _ IH]; constructor; auto. change (same_text_but_duration (show_record r ++ [10]) (show_record r' ++ [10])). right.
  exists (lit "=== TEST  " ++ r_name r ++ [10] ++ flat_map show_assert_line (r_asserts r) ++ lit "--- " ++ (if passed r then lit "PASS" else lit "FAIL") ++ lit "  " ++ r_name r), (show_duration (t_total (r_time r))), (show_duration (t_total (r_time r'))). do 2 eexists.
  split; [apply show_duration_text|]. split; [apply show_duration_text|]. unfold show_record, passed. rewrite <- N, <- A. split; rewrite <- !app_assoc; reflexivity.
Qed.
Lemma does_same l l' : Forall2 same_event_but_duration l l' -> Forall2 paced_action (map Does l) (map Does l').
Proof. induction 1; constructor; auto. Qed.
Lemma skipn_same {A} (R : A -> A -> Prop) l l' n : Forall2 R l l' -> Forall2 R (skipn n l) (skipn n l').
Proof. intros H. revert n. induction H; intros [|n]; cbn; auto. Qed.
Lemma same_length {A B} (R : A -> B -> Prop) l l' : Forall2 R l l' -> length l = length l'.
Proof. induction 1; cbn; auto. Qed.
Lemma iteration_paced stat t t' : paced_tester t t' -> paced_tester (iteration stat t) (iteration stat t').
Proof.
  intros [J (E & S & S') Pa Nu Ph St Td]. destruct (block_paced _ _ (j_body (te_job t)) E S S' _ _ St) as [F R]. unfold iteration. rewrite <- J.
  destruct (eval_block (te_env t) _ _) as [o s1], (eval_block (te_env t') _ _) as [o' s1']. cbn [fst snd] in F, R. subst o'.
  assert (Sn : Forall2 paced_action (since (te_state t) s1) (since (te_state t') s1')).
  { unfold since. rewrite (same_length _ _ _ (pc_trace _ _ St)). apply does_same, skipn_same, R. }
  assert (Hm : e_host (te_env t) = e_host (te_env t')) by (destruct E as [[Eh _] _]; congruence). destruct R as [Rv Rq Rr Rt]. pose proof (reports_same _ _ Rr) as Rl.
  assert (Pu : forall rs rs' n, Forall2 paced_action (puts t rs n) (puts t' rs' n)). { intros. unfold puts. rewrite <- Pa. destruct (te_path t); repeat constructor. }
  unfold ctx_records. rewrite <- Hm, <- Nu.
  destruct o as [v|e| |], (j_limit (te_job t)) as [m|]; cbn [fst snd]; (split; cbn [te_job te_env te_path te_number te_phase te_state te_todo s_ctx s_trace]; auto).
  all: try (split; cbn [s_ctx s_trace c_vars c_reqs c_recs]; auto).
  all: repeat (apply Forall2_app; auto using does_same). all: repeat (constructor; auto using event_same); auto.
  all: try (destruct stat; repeat constructor). all: auto using does_same. all: now left.
Qed.
Definition paced_did (a a' : option action) : Prop := match a, a' with Some a, Some a' => paced_action a a' | None, None => True | _, _ => False end.
Lemma move_paced stat flag t t' a t1 : paced_tester t t' -> tester_move stat flag t = Some (a, t1) ->
  exists a' t1', tester_move stat flag t' = Some (a', t1') /\ paced_did a a' /\ paced_tester t1 t1'.
Proof.
  intros P M. pose proof (iteration_paced stat _ _ P) as It. destruct P as [J E Pa Nu Ph St Td]. unfold tester_move in *. rewrite <- Ph, <- J, <- Nu.
  destruct Td as [|x x' l l' X L].
  - destruct (te_phase t); try discriminate.
    + destruct (j_limit (te_job t)) as [m|]; [|discriminate]. injection M as <- <-. do 2 eexists. split; [reflexivity|]. split; [exact I|]. split; cbn; auto.
    + injection M as <- <-. do 2 eexists. split; [reflexivity|]. split; [exact I|exact It].
  - injection M as <- <-. do 2 eexists. split; [reflexivity|]. split; [exact X|]. split; cbn; auto.
Qed.

(** ** the process *)
Definition same_row (a b : str * stat) : Prop := fst a = fst b /\ st_count (snd a) = st_count (snd b).
Definition same_stats (m m' : stats) : Prop := Forall2 same_row m m'.
Lemma row_get m m' k : same_stats m m' -> match mget k m, mget k m' with Some s, Some s' => st_count s = st_count s' | None, None => True | _, _ => False end.
Proof. induction 1 as [|[n s] [n' s'] m m' [A B] _ IH]; cbn in *; auto. subst n'. destruct (str_eqb k n); auto. Qed.
Lemma row_set m m' k s s' : same_stats m m' -> st_count s = st_count s' -> same_stats (mset k s m) (mset k s' m').
Proof. intros H E. induction H as [|[n x] [n' x'] m m' [A B] H IH]; cbn in *; [repeat constructor; auto|]. subst n'. destruct (str_eqb k n); constructor; auto; split; auto. Qed.
Lemma add_same m m' k a b : same_stats m m' -> same_stats (stats_add m k a) (stats_add m' k b).
Proof. intros H. pose proof (row_get _ _ k H) as G. unfold stats_add. destruct (mget k m), (mget k m'); try contradiction; apply row_set; auto. cbn. now rewrite G. Qed.
Lemma records_same rs rs' : Forall2 same_record rs rs' -> forall m m', same_stats m m' -> same_stats (stats_add_records m rs) (stats_add_records m' rs').
Proof. unfold stats_add_records. induction 1 as [|r r' rs rs' [A B] _ IH]; intros m m' H; cbn [fold_left]; auto. apply IH. rewrite <- A. now apply add_same. Qed.
Lemma shown_same order m m' : same_stats m m' -> same_counts (show_stats order m) (show_stats order m').
Proof.
  intros H. assert (K : map fst m = map fst m') by (induction H as [|? ? ? ? [A _] _ IH]; cbn; congruence). unfold show_stats. rewrite <- K.
  induction (order (map fst m)) as [|k ks (rows & rows' & R & E & E')]; [exists [], []; repeat split; constructor|]. cbn [flat_map]. pose proof (row_get _ _ k H) as G.
  destruct (mget k m) as [s|], (mget k m') as [s'|]; try contradiction; [|exists rows, rows'; auto].
  exists ((k, s) :: rows), ((k, s') :: rows'). split; [constructor; auto; split; auto|]. cbn [map List.concat fst snd]. split; [rewrite <- E|rewrite <- E']; unfold stat_line, show_stat; rewrite <- !app_assoc; reflexivity.
Qed.
Record paced_process (p p' : process) : Prop := {
  pp_main : p_main p' = p_main p;
  pp_testers : Forall2 paced_tester (p_testers p) (p_testers p');
  pp_flag : p_flag p' = p_flag p;
  pp_queue : Forall2 (Forall2 same_record) (p_queue p) (p_queue p');
  pp_stats : same_stats (p_stats p) (p_stats p');
  pp_reported : p_reported p' = p_reported p;
  pp_log : same_log_but_durations (p_log p) (p_log p');
  pp_disk : same_files (p_disk p) (p_disk p')
}.
Lemma files_set d d' path x x' : same_files d d' -> same_files (mset path x d) (mset path x' d').
Proof.
  intros H q. destruct (list_eq_dec N.eq_dec q path) as [->|Ne]; [rewrite !mget_mset_same; split; discriminate|]. rewrite !mget_mset_other by auto. apply H.
Qed.
Lemma gone_paced t t' : paced_tester t t' -> gone t' = gone t.
Proof. intros [J E Pa Nu Ph St Td]. unfold gone. rewrite Ph. destruct Td; reflexivity. Qed.
Section Settings.
Variables g g' : setting.
Hypothesis other : other_networks g g'.
Hypothesis alike : forall id, same_but_pace (g_world g id) (g_world g' id) /\ steady (g_world g id) /\ steady (g_world g' id).
Lemma new_paced j : paced_tester (new_tester g j) (new_tester g' j).
Proof. destruct other as (_ & D & _). unfold new_tester. rewrite D. split; cbn; auto. split; cbn; auto using events_same. generalize (c_recs (j_ctx j)). intros l. induction l; constructor; auto. split; auto. Qed.
Lemma step_paced p p1 p' : paced_process p p' -> process_step g p p1 -> exists p1', process_step g' p' p1' /\ paced_process p1 p1'.
Proof.
  intros [M T F Q Q2 R L D] S. destruct p' as [m' ts' flag' q' st' r' l' d']. cbn in M, T, F, Q, Q2, R, L, D.
  pose proof other as (O1 & O2 & O3 & O4 & O5 & O6 & _).
  destruct S; cbn in M, T, F, Q, Q2, R, L, D; subst.
  - pose proof (new_paced j) as Nw. eexists. split; [apply ps_start; rewrite <- (pt_path _ _ Nw), O3; assumption|]. split; cbn [p_main p_testers p_flag p_queue p_stats p_reported p_log p_disk]; auto.
    + apply Forall2_app; auto.
    + rewrite <- (pt_path _ _ Nw). unfold disk_created. rewrite <- ?O4. destruct (te_path (new_tester g j)); auto using files_set.
  - pose proof (new_paced j) as Nw. eexists. split; [eapply ps_no_file; [rewrite <- (pt_path _ _ Nw); eassumption|now rewrite O3]|]. split; cbn; auto.
  - eexists. split; [apply ps_started|]. split; cbn; auto.
  - apply Forall2_app_inv_l in T. destruct T as (u1 & u2 & T1 & T2 & ->). inversion T2 as [|? t0 ? u2' Tt T3]; subst.
    match goal with H : tester_move _ _ _ = _ |- _ => destruct (move_paced _ _ _ _ _ _ Tt H) as (a' & t1' & Mv & Dd & Tn) end.
    eexists. split; [eapply ps_tester; [assumption|rewrite O1; exact Mv]|]. rewrite <- (pt_job _ _ Tt). pose proof (pt_path _ _ Tt) as Pa. split; cbn; auto.
    + apply Forall2_app; auto.
    + destruct a as [[]|], a' as [[]|]; cbn in Dd; try contradiction; auto. apply Forall2_app; auto.
    + destruct a as [[]|], a' as [[]|]; cbn in Dd; try contradiction; auto. apply Forall2_app; auto.
    + unfold disk_after. rewrite <- Pa. destruct a as [[]|], a' as [[]|]; cbn in Dd; try contradiction; auto. destruct (te_path t); auto using files_set.
  - eexists. split; [apply ps_stop|]. split; cbn; auto.
  - inversion Q as [|? rs' ? q0 Q0 Q1]; subst. eexists. split; [apply ps_receive; congruence|]. split; cbn; auto using records_same.
  - inversion Q; subst. eexists. split; [apply ps_report; [congruence|]|].
    + match goal with H : Forall _ ts |- _ => revert H end. clear -T. induction T as [|t t' ts ts' Tt _ IH]; intros H; [constructor|]. inversion H; subst. constructor; auto. rewrite <- (pt_job _ _ Tt), (gone_paced _ _ Tt). assumption.
    + split; cbn [p_main p_testers p_flag p_queue p_stats p_reported p_log p_disk]; auto. apply Forall2_app; auto. constructor; [|constructor]. split; [reflexivity|]. do 2 eexists. split; [reflexivity|]. split; [reflexivity|]. rewrite O5. now apply shown_same.
  - eexists. split; [apply ps_exit; [|congruence]|].
    + match goal with H : Forall _ ts |- _ => revert H end. clear -T. induction T as [|t t' ts ts' Tt _ IH]; intros H; [constructor|]. inversion H; subst. constructor; auto. now rewrite (gone_paced _ _ Tt).
    + split; cbn; auto.
  - eexists. split; [apply ps_die|]. split; cbn; auto.
Qed.
Lemma goes_paced p p1 : goes g p p1 -> forall p', paced_process p p' -> exists p1', goes g' p' p1' /\ paced_process p1 p1'.
Proof.
  induction 1 as [p|p p1 p2 G IH S]; intros p' P; [exists p'; split; [constructor|exact P]|].
  destruct (IH _ P) as (p1' & G' & P1). destruct (step_paced _ _ _ P1 S) as (p2' & S' & P2). exists p2'. split; [eapply go_step; eassumption|exact P2].
Qed.
End Settings.

(** ** before the threads *)
Lemma main_log l l' : Forall2 same_event_but_duration l l' -> same_log_but_durations (map (pair Main) l) (map (pair Main) l').
Proof. unfold same_log_but_durations. induction 1; constructor; auto. Qed.
Lemma named_clone pod c c' name body m n : ctx_clone c = ctx_clone c' -> forall id, named_jobs pod c name body m id n = named_jobs pod c' name body m id n.
Proof. intros E. induction n as [|n IH]; intros id; cbn; [reflexivity|]. now rewrite E, IH. Qed.
Lemma all_clone pod c c' ts : ctx_clone c = ctx_clone c' -> forall id, all_jobs pod c id ts = all_jobs pod c' id ts.
Proof. intros E. induction ts as [|[n b] ts IH]; intros id; cbn; [reflexivity|]. now rewrite E, IH. Qed.
Lemma main_paced iter w w' text name threads duration number pod : same_but_pace w w' -> steady w -> steady w' ->
  fst (main_test iter w text name threads duration number pod) = fst (main_test iter w' text name threads duration number pod) /\
  Forall2 same_event_but_duration (s_trace (snd (main_test iter w text name threads duration number pod))) (s_trace (snd (main_test iter w' text name threads duration number pod))).
Proof.
  intros E S S'. unfold main_test, test_command, test_setup. destruct (parse text) as [src|e| |]; cbn [fst snd]; try (split; [reflexivity|apply events_same]).
  set (s0 := upd _ _). assert (R0 : paced_st s0 s0). { split; auto using events_same. constructor. }
  destruct (block_paced w w' (s_exprs src) E S S' s0 s0 R0) as [F R]. destruct (eval_block w _ s0) as [o s1], (eval_block w' _ s0) as [o' s1']. cbn [fst snd] in F, R. subst o'.
  assert (Hm : e_host w = e_host w') by (destruct E as [[Eh _] _]; congruence).
  assert (Cl : ctx_clone (s_ctx s1) = ctx_clone (s_ctx s1')). { unfold ctx_clone. now rewrite (pc_vars _ _ R), (pc_reqs _ _ R). }
  destruct o as [v|e| |]; cbn [fst snd].
  - destruct name as [name|].
    + destruct (mget name (s_tests src)) as [body|]; [|split; [reflexivity|apply (paced_emit (Printed (lit "Test not found: " ++ name ++ [10])) _ _ R)]].
      destruct (maximun_of _ threads) as [m|e| |]; cbn [fst snd]; (split; [|apply R]); auto. now rewrite (named_clone pod _ _ name body m _ Cl).
    + cbn [fst snd]. split; [|apply R]. now rewrite (all_clone pod _ _ _ Cl).
  - split; [reflexivity|]. rewrite <- Hm. apply (paced_emit (Printed (everr_text (e_host w) e ++ [10])) _ _ R).
  - split; [reflexivity|apply R].
  - split; [reflexivity|apply R].
Qed.
Lemma launch_paced iter w w' root name threads duration number record pod d : same_but_pace w w' -> steady w -> steady w' ->
  paced_process (launch iter w root name threads duration number record pod d) (launch iter w' root name threads duration number record pod d).
Proof.
  intros E S S'. unfold launch. destruct (read_node (fst root) (snd root)) as [text|]; [|split; cbn; try constructor; auto].
  destruct (main_paced iter w w' text name threads duration number (if record then Some pod else None) E S S') as [F T].
  destruct (main_test iter w text name threads duration number _) as [o s], (main_test iter w' text name threads duration number _) as [o' s']. cbn [fst snd] in F, T. subst o'. apply main_log in T.
  destruct o as [[js|]|e| |]; (split; cbn; auto); try apply Forall2_nil; intros q; tauto.
Qed.

(** C142 *)
Theorem pace_run g g' iter w w' root name threads duration number record pod d p :
  same_but_pace w w' -> steady w -> steady w' -> other_networks g g' ->
  (forall id, same_but_pace (g_world g id) (g_world g' id) /\ steady (g_world g id) /\ steady (g_world g' id)) ->
  goes g (launch iter w root name threads duration number record pod d) p ->
  exists p', goes g' (launch iter w' root name threads duration number record pod d) p' /\
    p_main p' = p_main p /\ p_flag p' = p_flag p /\ same_log_but_durations (p_log p) (p_log p') /\ same_files (p_disk p) (p_disk p').
Proof.
  intros E S S' O A G. destruct (goes_paced g g' O A _ _ G _ (launch_paced iter w w' root name threads duration number record pod d E S S')) as (p' & G' & P).
  exists p'. split; [exact G'|]. destruct P; auto.
Qed.
