(** C92-C94, C96 *)
From Verif Require Import SpecOutage ProcessStop OutageLaunch OutageStart EvalExamples RunExamples ProcessExamples OutageExamples.
From Coq Require Import Permutation.
Open Scope N_scope.

(** C92.  Refused output: at any time, in the end, and the exit status *)

Theorem C92_named : forall iter w h path name threads duration number record pod d g src s1 body fs k, loads w (root_of path h) src s1 -> mget name (s_tests src) = Some body -> threads <> 0 ->
  reaches g fs (command_start iter w (Some h) path (Some name) threads duration number record pod d) k ->
  (exists m l, log_of k = map (pair Main) m ++ l /\ starts_with m (s_trace s1) /\ Forall (fun x => fst x <> Main) l /\ (l <> [] -> m = s_trace s1)) /\
  (forall id, threads <= id -> events_of (Tester id) (log_of k) = []) /\
  (forall id, id < threads -> let own := events_of (Tester id) (log_of k) in let file := record_path g pod id in
    exists bs, under_way (g_world g id) body (s_ctx s1) (share duration number threads) bs own /\
      (record = true -> mget file (disk_of k) = Some (recorded g file name id bs) \/ bs = [] /\ own = [] /\ mget file (disk_of k) = mget file d)) /\
  (forall file, (record = true -> forall id, id < threads -> file <> record_path g pod id) -> mget file (disk_of k) = mget file d).
Proof. exact outage_named. Qed.
Print Assumptions C92_named.
Theorem C92_named_end : forall iter w h path name threads duration number record pod d g src s1 body fs stopped l d', loads w (root_of path h) src s1 -> mget name (s_tests src) = Some body -> threads <> 0 ->
  reaches g fs (command_start iter w (Some h) path (Some name) threads duration number record pod d) (Ended (Exit true) stopped l d') ->
  exists bss, length bss = N.to_nat threads /\
  (forall id bs, nth_error bss (N.to_nat id) = Some bs -> let own := events_of (Tester id) l in
    (~ In (Mute (Tester id)) fs -> done_with (g_world g id) body (s_ctx s1) (share duration number threads) stopped bs own) /\
    (In (Mute (Tester id)) fs -> cut_short (g_world g id) body (s_ctx s1) (share duration number threads) bs own) /\
    (record = true -> mget (record_path g pod id) d' = Some (recorded g (record_path g pod id) name id bs))) /\
  (g_stat g = false \/ In (Mute Collector) fs -> events_of Collector l = []) /\
  (g_stat g = true -> ~ In (Mute Collector) fs -> (forall ks, Permutation (g_order g ks) ks) ->
    exists l1 text, l = l1 ++ [(Collector, Printed text)] /\ events_of Collector l1 = [] /\ stat_report (flat_map samples (List.concat bss)) text).
Proof. exact outage_named_end. Qed.
Print Assumptions C92_named_end.
Example C92_named_reaches_example : reaches plain (fst demo_out) demo_start (snd demo_out).
Proof. exact demo_out_reaches. Qed.

Example C92_named_example : fst demo_out = [Mute (Tester 1)] /\
  match snd demo_out with
  | Ended e s l d =>
      e = Exit true /\ s = false /\ map (fun k => length (events_of k l)) [Main; Tester 0; Tester 1; Collector] = [0; 6; 5; 1]%nat /\
      last (texts l) (Main, []) = (Collector, lit "get count=3  sum=0  avg=0  max=0  min=0" ++ [10]) /\
      (match mget (lit "out/p000000") d, mget (lit "out/p000001") d with Some a, Some b => (length b < length a)%nat | _, _ => False end)
  | _ => False
  end.
Proof. exact demo_out_seen. Qed.

Example C92_collector_example : reaches plain (fst mute_out) demo_start (snd mute_out) /\ fst mute_out = [Mute Collector] /\
  match snd mute_out with Ended e s l d => e = Exit true /\ map (fun k => length (events_of k l)) [Main; Tester 0; Tester 1; Collector] = [0; 6; 6; 0]%nat | _ => False end.
Proof. exact mute_out_seen. Qed.

Example C92_loads_example : exists src s1 body, loads online (root_of (Some (at_file demo_text)) home) src s1 /\ mget (lit "t") (s_tests src) = Some body /\ share None 5 2 = 2.
Proof. exact demo_loads. Qed.

Theorem C92_all : forall iter w h path threads duration number record pod d g src s1 fs k, loads w (root_of path h) src s1 -> N.of_nat (length (iter (s_tests src))) <= 2 ^ 32 ->
  reaches g fs (command_start iter w (Some h) path None threads duration number record pod d) k ->
  (exists m l, log_of k = map (pair Main) m ++ l /\ starts_with m (s_trace s1) /\ Forall (fun x => fst x <> Main) l /\ (l <> [] -> m = s_trace s1)) /\
  (forall id, N.of_nat (length (iter (s_tests src))) <= id -> events_of (Tester id) (log_of k) = []) /\
  (events_of Collector (log_of k) = [] \/ g_stat g = true /\ events_of Collector (log_of k) = [Printed []]) /\
  (forall id name body, nth_error (iter (s_tests src)) (N.to_nat id) = Some (name, body) ->
    exists o s2, eval_block (g_world g id) body (St (Ctx (c_vars (s_ctx s1)) (c_reqs (s_ctx s1)) []) []) = (o, s2) /\
    let own := events_of (Tester id) (log_of k) in let whole := s_trace s2 ++ afterwards_once (g_world g id) o s2 in let file := record_path g pod id in
    starts_with own whole /\
    (record = true -> (own = [] /\ mget file (disk_of k) = mget file d) \/ mget file (disk_of k) = Some (recorded g file name id []) \/
      (own = whole /\ o <> Panic /\ o <> Diverge /\ mget file (disk_of k) = Some (recorded g file name id [c_recs (s_ctx s2)])))) /\
  (forall file, (record = true -> forall id, id < N.of_nat (length (iter (s_tests src))) -> file <> record_path g pod id) -> mget file (disk_of k) = mget file d).
Proof. exact outage_all. Qed.
Print Assumptions C92_all.
Theorem C92_all_end : forall iter w h path threads duration number record pod d g src s1 fs stopped l d', loads w (root_of path h) src s1 -> N.of_nat (length (iter (s_tests src))) <= 2 ^ 32 ->
  reaches g fs (command_start iter w (Some h) path None threads duration number record pod d) (Ended (Exit true) stopped l d') ->
  (forall id name body, nth_error (iter (s_tests src)) (N.to_nat id) = Some (name, body) ->
    exists o s2, eval_block (g_world g id) body (St (Ctx (c_vars (s_ctx s1)) (c_reqs (s_ctx s1)) []) []) = (o, s2) /\
    let own := events_of (Tester id) l in let whole := s_trace s2 ++ afterwards_once (g_world g id) o s2 in let file := record_path g pod id in
    (~ In (Mute (Tester id)) fs -> own = whole /\ o <> Diverge) /\
    (In (Mute (Tester id)) fs -> exists x rest, whole = own ++ Printed x :: rest) /\
    (record = true -> In (Mute (Tester id)) fs \/ o = Panic -> mget file d' = Some (recorded g file name id [])) /\
    (record = true -> ~ In (Mute (Tester id)) fs -> o <> Panic -> mget file d' = Some (recorded g file name id [c_recs (s_ctx s2)]))) /\
  (g_stat g = false \/ In (Mute Collector) fs -> events_of Collector l = []) /\
  (g_stat g = true -> ~ In (Mute Collector) fs -> events_of Collector l = [Printed []]).
Proof. exact outage_all_end. Qed.
Print Assumptions C92_all_end.
Example C92_all_example : reaches plain (fst all_muted) all_start (snd all_muted) /\ fst all_muted = [Mute (Tester 0)] /\
  match snd all_muted with Ended e s l d => e = Exit true /\ map (fun k => length (events_of k l)) [Tester 0; Tester 1; Collector] = [1; 4; 1]%nat /\ mget (lit "/abs000000") d = Some (recorded plain (lit "/abs000000") (lit "a") 0 []) | _ => False end.
Proof. exact all_muted_seen. Qed.

Theorem C92_setup : forall iter w h path name threads duration number record pod d g fs k, reaches g fs (command_start iter w (Some h) path name threads duration number record pod d) k -> In (Mute Main) fs ->
  exists did t todo, p_log (launch iter w (root_of path h) name threads duration number record pod d) = map (pair Main) (did ++ Printed t :: todo) /\
    k = Ended (Exit false) false (map (pair Main) did) d /\ fs = [Mute Main].
Proof. exact outage_mute_main. Qed.
Print Assumptions C92_setup.
Example C92_setup_example : reaches plain [Mute Main] setup_start (Ended (Exit false) false [] old_files).
Proof. exact setup_out. Qed.

Example C92_syntax_example : reaches plain [Mute Main] syntax_start (Ended (Exit false) false [] []) /\
  exists l, reaches plain [] syntax_start (Ended (Exit true) false l []) /\ length l = 1%nat.
Proof. exact syntax_out. Qed.

Theorem C92_named_status : forall iter w h path name threads duration number record pod d g src s1 body fs stopped l d', loads w (root_of path h) src s1 -> mget name (s_tests src) = Some body -> threads <> 0 -> (record = true -> forall id, id < threads -> g_creates g (record_path g pod id) = true) ->
  reaches g fs (command_start iter w (Some h) path (Some name) threads duration number record pod d) (Ended (Exit false) stopped l d') -> fs = [Mute Main] \/ exists fs', fs = fs' ++ [Unstarted].
Proof. exact outage_named_status. Qed.
Print Assumptions C92_named_status.
Theorem C92_all_status : forall iter w h path threads duration number record pod d g src s1 fs stopped l d', loads w (root_of path h) src s1 -> N.of_nat (length (iter (s_tests src))) <= 2 ^ 32 ->
  (record = true -> forall id, id < N.of_nat (length (iter (s_tests src))) -> g_creates g (record_path g pod id) = true) ->
  reaches g fs (command_start iter w (Some h) path None threads duration number record pod d) (Ended (Exit false) stopped l d') -> fs = [Mute Main] \/ exists fs', fs = fs' ++ [Unstarted].
Proof. exact outage_all_status. Qed.
Print Assumptions C92_all_status.
(** C93.  The interrupt *)

Theorem C93_caught : forall iter w h path name threads duration number record pod d g src s1 body fs p dead c, loads w (root_of path h) src s1 -> mget name (s_tests src) = Some body -> threads <> 0 -> g_heeds g = true ->
  reaches g fs (command_start iter w (Some h) path (Some name) threads duration number record pod d) (Running p dead c) -> p_main p = Joining ->
  (forall x s l d', ~ state_step g x (Running p dead c) (Ended ByInterrupt s l d')) /\
  exists p', state_step g None (Running p dead c) (Running p' dead c) /\ p_flag p' = false /\ p_testers p' = p_testers p /\ p_log p' = p_log p /\ p_disk p' = p_disk p.
Proof. exact outage_caught. Qed.
Print Assumptions C93_caught.
Example C93_caught_example : reaches plain [] demo_start joining /\ match joining with Running p dead c => p_main p = Joining /\ p_flag p = true /\ length (p_testers p) = 2%nat | _ => False end.
Proof. exact joining_seen. Qed.

Theorem C93_stops : forall iter w root name threads duration number record pod d g src s1 body p id, loads w root src s1 -> mget name (s_tests src) = Some body -> threads <> 0 -> id < threads ->
  goes g (launch iter w root (Some name) threads duration number record pod d) p -> p_flag p = false ->
  let own q := events_of (Tester id) (p_log q) in let w' := g_world g id in let m := share duration number threads in
  exists bs s whole, iterated w' body (s_ctx s1) (N.of_nat (length bs)) s bs /\ N.of_nat (length bs) <= m /\
    (own p = s_trace s /\ whole = own p \/
     N.of_nat (length bs) < m /\ exists o s2, eval_block w' body s = (o, s2) /\ starts_with (s_trace s) (own p) /\ whole = s_trace s2 ++ afterwards w' o s2) /\
    forall p', goes g p p' -> starts_with (own p') whole /\ (p_main p' = Gone true -> own p' = whole).
Proof. exact named_stop. Qed.
Print Assumptions C93_stops.
Example C93_stops_example : goes plain demo_launch stopping /\ p_flag stopping = false /\ map (fun k => length (events_of k (p_log stopping))) [Tester 0] = [1]%nat /\ let p' := play plain (taking_turns 40) stopping in goes plain stopping p' /\ p_main p' = Gone true /\ length (events_of (Tester 0) (p_log p')) = 3%nat.
Proof. exact stopping_seen. Qed.

Theorem C93_before : forall g k, (forall e s l d', k <> Ended e s l d') ->
  (forall p dead c, k = Running p dead c -> running (p_main p) = true /\ (p_main p <> Joining \/ g_heeds g = false)) ->
  state_step g (Some Signal) k (Ended ByInterrupt (stopped_of k) (log_of k) (disk_of k)).
Proof. exact outage_before. Qed.
Print Assumptions C93_before.
Theorem C93_killed : forall iter w h path name threads duration number record pod d g src s1 body fs stopped l d', loads w (root_of path h) src s1 -> mget name (s_tests src) = Some body -> threads <> 0 -> g_heeds g = true ->
  reaches g fs (command_start iter w (Some h) path (Some name) threads duration number record pod d) (Ended ByInterrupt stopped l d') ->
  stopped = false /\ events_of Collector l = [].
Proof. exact outage_killed. Qed.
Print Assumptions C93_killed.
Example C93_killed_example : reaches plain (fst early_out) demo_start (snd early_out) /\ fst early_out = [Signal] /\
  match snd early_out with Ended e s l d => e = ByInterrupt /\ map (fun k => length (events_of k l)) [Tester 0; Tester 1; Collector] = [3; 0; 0]%nat | _ => False end.
Proof. exact early_out_seen. Qed.

Theorem C93_uncaught : forall iter w h path threads duration number record pod d g src s1 fs p dead c, loads w (root_of path h) src s1 -> N.of_nat (length (iter (s_tests src))) <= 2 ^ 32 ->
  reaches g fs (command_start iter w (Some h) path None threads duration number record pod d) (Running p dead c) -> running (p_main p) = true ->
  let k := Running p dead c in state_step g (Some Signal) k (Ended ByInterrupt (stopped_of k) (log_of k) (disk_of k)).
Proof. exact outage_uncaught. Qed.
Print Assumptions C93_uncaught.
Example C93_uncaught_example : reaches plain (fst all_out) all_start (snd all_out) /\ fst all_out = [Signal] /\
  match snd all_out with Ended e s l d => e = ByInterrupt /\ map fst d = [lit "/abs000000"; lit "/abs000001"] /\ mget (lit "/abs000000") d = Some (recorded plain (lit "/abs000000") (lit "a") 0 []) | _ => False end.
Proof. exact all_out_seen. Qed.

(** C94.  Without trouble nothing changes; with it the command still ends *)

Theorem C94_quiet : forall iter w h path name threads duration number record pod d g k, reaches g [] (command_start iter w (Some h) path name threads duration number record pod d) k ->
  (exists did todo, p_log (launch iter w (root_of path h) name threads duration number record pod d) = map (pair Main) (did ++ todo) /\
    log_of k = map (pair Main) did /\ disk_of k = d /\ (forall e s l d', k <> Ended e s l d')) \/
  exists p, goes g (launch iter w (root_of path h) name threads duration number record pod d) p /\ log_of k = p_log p /\ disk_of k = p_disk p /\ stopped_of k = negb (p_flag p) /\
    (forall e s l d', k = Ended e s l d' -> exists b, e = Exit b /\ p_main p = Gone b).
Proof. exact outage_quiet. Qed.
Print Assumptions C94_quiet.
Theorem C94_plain : forall iter w h path name threads duration number record pod d g p, goes g (launch iter w (root_of path h) name threads duration number record pod d) p ->
  exists k, reaches g [] (command_start iter w (Some h) path name threads duration number record pod d) k /\ log_of k = p_log p /\ disk_of k = p_disk p /\ stopped_of k = negb (p_flag p) /\
    forall b, p_main p = Gone b -> k = Ended (Exit b) (negb (p_flag p)) (p_log p) (p_disk p).
Proof. exact outage_plain. Qed.
Print Assumptions C94_plain.
Theorem C94_nowhere : forall iter w path name threads duration number record pod d g fs k, reaches g fs (command_start iter w None path name threads duration number record pod d) k -> k = Ended (Exit false) false [] d /\ fs = [].
Proof. exact outage_nowhere. Qed.
Print Assumptions C94_nowhere.
Theorem C94_bounded : forall iter w here path name threads duration number record pod d g fs k, reaches g fs (command_start iter w here path name threads duration number record pod d) k -> Acc (fun k' k => (exists x, state_step g x k k') /\ k' <> k) k.
Proof. exact outage_bounded. Qed.
Print Assumptions C94_bounded.
Theorem C94_named_ends : forall iter w h path name threads duration number record pod d g src s1 body fs k, loads w (root_of path h) src s1 -> mget name (s_tests src) = Some body -> threads <> 0 ->
  (forall id n s bs, id < threads -> n < share duration number threads -> iterated (g_world g id) body (s_ctx s1) n s bs -> fst (eval_block (g_world g id) body s) <> Diverge) ->
  reaches g fs (command_start iter w (Some h) path (Some name) threads duration number record pod d) k -> (forall e s l d', k <> Ended e s l d') ->
  exists b l d', reaches g [] k (Ended (Exit b) (stopped_of k) l d').
Proof. exact outage_named_ends. Qed.
Print Assumptions C94_named_ends.
Theorem C94_all_ends : forall iter w h path threads duration number record pod d g src s1 fs k, loads w (root_of path h) src s1 -> N.of_nat (length (iter (s_tests src))) <= 2 ^ 32 ->
  (forall id name body, nth_error (iter (s_tests src)) (N.to_nat id) = Some (name, body) ->
    fst (eval_block (g_world g id) body (St (Ctx (c_vars (s_ctx s1)) (c_reqs (s_ctx s1)) []) [])) <> Diverge) ->
  reaches g fs (command_start iter w (Some h) path None threads duration number record pod d) k -> (forall e s l d', k <> Ended e s l d') ->
  exists b l d', reaches g [] k (Ended (Exit b) (stopped_of k) l d').
Proof. exact outage_all_ends. Qed.
Print Assumptions C94_all_ends.
Example C94_example : forall g c m threads, forall id k s bs, id < threads -> k < m -> iterated (g_world g id) [EInt 1] c k s bs -> fst (eval_block (g_world g id) [EInt 1] s) <> Diverge.
Proof. exact constant_ends. Qed.

Example C94_nowhere_example : command_start (fun l => l) online None (Some (at_file demo_text)) (Some (lit "t")) 2 None 5 true (lit "p") old_files = Ended (Exit false) false [] old_files.
Proof. reflexivity. Qed.

(** C96.  A thread that cannot be started *)

Theorem C96_named : forall iter w h path name threads duration number record pod d g src s1 body fs k, loads w (root_of path h) src s1 -> mget name (s_tests src) = Some body -> threads <> 0 ->
  reaches g fs (command_start iter w (Some h) path (Some name) threads duration number record pod d) k -> In Unstarted fs ->
  exists fs' n l d', fs = fs' ++ [Unstarted] /\ ~ In Unstarted fs' /\ k = Ended (Exit false) false l d' /\ n <= threads /\
  (exists l', l = map (pair Main) (s_trace s1) ++ l' /\ Forall (fun x => fst x <> Main /\ fst x <> Collector) l') /\
  (forall id, id < n -> exists bs, under_way (g_world g id) body (s_ctx s1) (share duration number threads) bs (events_of (Tester id) l) /\
    (record = true -> mget (record_path g pod id) d' = Some (recorded g (record_path g pod id) name id bs))) /\
  (forall id, n <= id -> events_of (Tester id) l = []) /\
  (record = true -> n < threads -> mget (record_path g pod n) d' = Some (recorded g (record_path g pod n) name n [])) /\
  (forall file, (record = true -> forall id, id <= n -> id < threads -> file <> record_path g pod id) -> mget file d' = mget file d).
Proof. exact outage_unstarted_named. Qed.
Print Assumptions C96_named.
Example C96_named_example : reaches plain (fst alone_out) demo_start (snd alone_out) /\ fst alone_out = [Unstarted] /\
  match snd alone_out with
  | Ended e s l d =>
      e = Exit false /\ map (fun k => length (events_of k l)) [Main; Tester 0; Tester 1; Collector] = [0; 5; 0; 0]%nat /\
      mget (lit "out/p000001") d = Some (recorded plain (lit "out/p000001") (lit "t") 1 []) /\
      match mget (lit "out/p000000") d, mget (lit "out/p000001") d with Some a, Some b => (length b < length a)%nat | _, _ => False end
  | _ => False
  end.
Proof. exact alone_out_seen. Qed.

Theorem C96_all : forall iter w h path threads duration number record pod d g src s1 fs k, loads w (root_of path h) src s1 -> N.of_nat (length (iter (s_tests src))) <= 2 ^ 32 ->
  reaches g fs (command_start iter w (Some h) path None threads duration number record pod d) k -> In Unstarted fs ->
  exists fs' n l d', fs = fs' ++ [Unstarted] /\ ~ In Unstarted fs' /\ k = Ended (Exit false) false l d' /\ n <= N.of_nat (length (iter (s_tests src))) /\
  (exists l', l = map (pair Main) (s_trace s1) ++ l' /\ Forall (fun x => fst x <> Main /\ fst x <> Collector) l') /\
  (forall id, n <= id -> events_of (Tester id) l = []) /\
  (forall id name body, nth_error (iter (s_tests src)) (N.to_nat id) = Some (name, body) -> record = true -> let file := record_path g pod id in
    (id < n -> mget file d' = Some (recorded g file name id []) \/ exists o s2, eval_block (g_world g id) body (St (Ctx (c_vars (s_ctx s1)) (c_reqs (s_ctx s1)) []) []) = (o, s2) /\
      events_of (Tester id) l = s_trace s2 ++ afterwards_once (g_world g id) o s2 /\ mget file d' = Some (recorded g file name id [c_recs (s_ctx s2)])) /\
    (id = n -> mget file d' = Some (recorded g file name n []))) /\
  (forall file, (record = true -> forall id, id <= n -> id < N.of_nat (length (iter (s_tests src))) -> file <> record_path g pod id) -> mget file d' = mget file d).
Proof. exact outage_unstarted_all. Qed.
Print Assumptions C96_all.
Example C96_all_example : reaches plain (fst last_out) all_start (snd last_out) /\ fst last_out = [Unstarted] /\
  match snd last_out with
  | Ended e s l d => e = Exit false /\ map (fun k => length (events_of k l)) [Tester 0; Tester 1; Collector] = [0; 4; 0]%nat /\
      mget (lit "/abs000000") d = Some (recorded plain (lit "/abs000000") (lit "a") 0 [])
  | _ => False
  end.
Proof. exact last_out_seen. Qed.

