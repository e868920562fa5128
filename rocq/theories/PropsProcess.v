(** C86-C89 *)
From Verif Require Import SpecProcess ProcessLaunch ProcessStop AvroProofs RecordProofs ContainerProofs EvalExamples RunExamples ProcessExamples.
From Coq Require Import Permutation.
Open Scope N_scope.

(** C86.  A named test, then every test once *)

Theorem C86_order : forall iter w root name threads duration number record pod d g src s1 body p, loads w root src s1 -> mget name (s_tests src) = Some body -> threads <> 0 ->
  goes g (launch iter w root (Some name) threads duration number record pod d) p ->
  (exists l, p_log p = map (pair Main) (s_trace s1) ++ l /\ Forall (fun x => fst x <> Main) l) /\
  (forall id, threads <= id -> events_of (Tester id) (p_log p) = []) /\
  (forall id, id < threads -> exists bs, under_way (g_world g id) body (s_ctx s1) (share duration number threads) bs (events_of (Tester id) (p_log p))).
Proof. exact named_log. Qed.
Print Assumptions C86_order.
Theorem C86_end : forall iter w root name threads duration number record pod d g src s1 body p, loads w root src s1 -> mget name (s_tests src) = Some body -> threads <> 0 ->
  goes g (launch iter w root (Some name) threads duration number record pod d) p -> p_main p = Gone true ->
  exists bss, length bss = N.to_nat threads /\
  (forall id bs, nth_error bss (N.to_nat id) = Some bs ->
    done_with (g_world g id) body (s_ctx s1) (share duration number threads) (negb (p_flag p)) bs (events_of (Tester id) (p_log p)) /\
    (record = true -> mget (record_path g pod id) (p_disk p) = Some (recorded g (record_path g pod id) name id bs))) /\
  (g_stat g = false -> events_of Collector (p_log p) = []) /\
  (g_stat g = true -> (forall ks, Permutation (g_order g ks) ks) -> exists l text, p_log p = l ++ [(Collector, Printed text)] /\ events_of Collector l = [] /\
    stat_report (flat_map samples (List.concat bss)) text).
Proof. exact named_end. Qed.
Print Assumptions C86_end.
Theorem C86_statistics_last : forall iter w root name threads duration number record pod d g src s1 body p text, loads w root src s1 -> mget name (s_tests src) = Some body -> threads <> 0 ->
  goes g (launch iter w root (Some name) threads duration number record pod d) p ->
  In (Collector, Printed text) (p_log p) -> g_stat g = true /\ exists l, p_log p = l ++ [(Collector, Printed text)] /\ events_of Collector l = [].
Proof. exact named_report. Qed.
Print Assumptions C86_statistics_last.
Example C86_loads_example : exists src s1 body, loads online (at_file demo_text) src s1 /\ mget (lit "t") (s_tests src) = Some body /\ share None 5 2 = 2.
Proof. exact demo_loads. Qed.

Example C86_goes_example : goes plain demo_launch demo_done.
Proof. exact demo_goes. Qed.

Example C86_example : p_main demo_done = Gone true /\
  map fst (filter (fun x => match snd x with Sent _ => true | _ => false end) (p_log demo_done)) = [Tester 0; Tester 1; Tester 1; Tester 0] /\
  map (fun k => length (events_of k (p_log demo_done))) [Main; Tester 0; Tester 1; Tester 2; Collector] = [0; 6; 6; 0; 1]%nat /\
  last (texts (p_log demo_done)) (Main, []) = (Collector, lit "get count=4  sum=0  avg=0  max=0  min=0" ++ [10]) /\
  mget (lit "out/p000002") (p_disk demo_done) = Some [3] /\
  (match mget (lit "out/p000000") (p_disk demo_done), mget (lit "out/p000001") (p_disk demo_done) with Some a, Some b => firstn 3 a = [79; 98; 106] /\ firstn 3 b = [79; 98; 106] | _, _ => False end).
Proof. exact demo_seen. Qed.

Example C86_stopped_example : p_main stopped_done = Gone true /\ map (fun k => length (events_of k (p_log stopped_done))) [Tester 0; Tester 1; Collector] = [3; 0; 1]%nat.
Proof. exact stopped_seen. Qed.

Theorem C86_all_order : forall iter w root threads duration number record pod d g src s1 p, loads w root src s1 -> N.of_nat (length (iter (s_tests src))) <= 2 ^ 32 ->
  goes g (launch iter w root None threads duration number record pod d) p ->
  (exists l, p_log p = map (pair Main) (s_trace s1) ++ l /\ Forall (fun x => fst x <> Main) l) /\
  (forall id, N.of_nat (length (iter (s_tests src))) <= id -> events_of (Tester id) (p_log p) = []) /\
  (events_of Collector (p_log p) = [] \/ g_stat g = true /\ events_of Collector (p_log p) = [Printed []]) /\
  (p_main p = Gone true -> events_of Collector (p_log p) = if g_stat g then [Printed []] else []).
Proof. exact all_log. Qed.
Print Assumptions C86_all_order.
Theorem C86_all_threads : forall iter w root threads duration number record pod d g src s1 p id name body, loads w root src s1 -> N.of_nat (length (iter (s_tests src))) <= 2 ^ 32 -> nth_error (iter (s_tests src)) (N.to_nat id) = Some (name, body) ->
  goes g (launch iter w root None threads duration number record pod d) p ->
  exists o s2, eval_block (g_world g id) body (St (Ctx (c_vars (s_ctx s1)) (c_reqs (s_ctx s1)) []) []) = (o, s2) /\
  let own := events_of (Tester id) (p_log p) in let whole := s_trace s2 ++ afterwards_once (g_world g id) o s2 in
  starts_with own whole /\ (p_main p = Gone true -> own = whole /\ o <> Diverge) /\
  (record = true -> let path := record_path g pod id in
    (own = [] /\ mget path (p_disk p) = mget path d /\ p_main p <> Gone true) \/
    (mget path (p_disk p) = Some (recorded g path name id []) /\ (p_main p = Gone true -> o = Panic)) \/
    (own = whole /\ o <> Panic /\ o <> Diverge /\ mget path (p_disk p) = Some (recorded g path name id [c_recs (s_ctx s2)]))).
Proof. exact all_threads. Qed.
Print Assumptions C86_all_threads.
Example C86_all_loads_example : exists src s1, loads online (at_file all_text) src s1 /\ N.of_nat (length (s_tests src)) <= 2 ^ 32 /\
  map fst (s_tests src) = [lit "a"; lit "b"].
Proof. exact all_loads. Qed.

Example C86_all_example : goes plain all_launch all_done /\ p_main all_done = Gone true /\
  map (fun k => length (events_of k (p_log all_done))) [Tester 0; Tester 1; Collector] = [2; 4; 1]%nat /\
  map fst (p_disk all_done) = [lit "/abs000000"; lit "/abs000001"].
Proof. exact all_seen. Qed.

(** C87 *)

Theorem C87_files : forall iter w root name threads duration number pod d g src s1 body p id, loads w root src s1 -> mget name (s_tests src) = Some body -> threads <> 0 -> id < threads ->
  goes g (launch iter w root (Some name) threads duration number true pod d) p ->
  let path := record_path g pod id in let own := events_of (Tester id) (p_log p) in
  (mget path (p_disk p) = mget path d /\ own = [] /\ p_main p <> Gone true) \/
  exists bs, under_way (g_world g id) body (s_ctx s1) (share duration number threads) bs own /\ mget path (p_disk p) = Some (recorded g path name id bs).
Proof. exact named_files. Qed.
Print Assumptions C87_files.
Theorem C87_kept : forall iter w root name threads duration number record pod d g src s1 body p path, loads w root src s1 -> mget name (s_tests src) = Some body -> threads <> 0 ->
  goes g (launch iter w root (Some name) threads duration number record pod d) p ->
  (record = true -> forall id, id < threads -> path <> record_path g pod id) -> mget path (p_disk p) = mget path d.
Proof. exact named_kept. Qed.
Print Assumptions C87_kept.
Theorem C87_all_files : forall iter w root threads duration number pod d g src s1 p id name body, loads w root src s1 -> N.of_nat (length (iter (s_tests src))) <= 2 ^ 32 -> nth_error (iter (s_tests src)) (N.to_nat id) = Some (name, body) ->
  goes g (launch iter w root None threads duration number true pod d) p ->
  exists o s2, eval_block (g_world g id) body (St (Ctx (c_vars (s_ctx s1)) (c_reqs (s_ctx s1)) []) []) = (o, s2) /\
  let path := record_path g pod id in let now := mget path (p_disk p) in
  (now = mget path d \/ now = Some (recorded g path name id []) \/ now = Some (recorded g path name id [c_recs (s_ctx s2)])) /\
  (p_main p = Gone true -> now = Some (recorded g path name id (match o with Panic => [] | _ => [c_recs (s_ctx s2)] end))).
Proof. exact all_files. Qed.
Print Assumptions C87_all_files.
Theorem C87_all_kept : forall iter w root threads duration number record pod d g src s1 p path, loads w root src s1 -> N.of_nat (length (iter (s_tests src))) <= 2 ^ 32 ->
  goes g (launch iter w root None threads duration number record pod d) p ->
  (record = true -> forall id, id < N.of_nat (length (iter (s_tests src))) -> path <> record_path g pod id) -> mget path (p_disk p) = mget path d.
Proof. exact all_kept. Qed.
Print Assumptions C87_all_kept.
Theorem C87_readable : forall g path name id bs, g_accepts g path = [] -> id < 2 ^ 32 -> N.of_nat (length bs) <= 2 ^ 32 -> Forall (Forall SpecWriter.fits) bs -> small (recorded g path name id bs) ->
  exists kvs sync blks, container (recorded g path name id bs) kvs sync blks /\ length blks = length bs /\
  forall k blk, nth_error blks k = Some blk -> exists rs, nth_error bs k = Some rs /\ fst blk = Z.of_nat (length rs) /\
    items Counted record_ty (snd blk) (d_batch name id (N.of_nat k) rs).
Proof. exact recorded_holds. Qed.
Print Assumptions C87_readable.
Example C87_example : mget (lit "out/p000002") old_files = Some [3] /\ mget (lit "out/p000002") (p_disk demo_done) = Some [3] /\
  mget (lit "out/p000000") old_files = Some [1; 2] /\ mget (lit "out/p000000") (p_disk demo_done) <> Some [1; 2] /\
  record_path plain (lit "p") 12 = lit "out/p000012" /\ record_path plain (lit "/p") 12 = lit "/p000012".
Proof. vm_compute. repeat split. discriminate. Qed.

(** C88 *)

Theorem C88_unreadable : forall iter w root name threads duration number record pod d g p, read_node (fst root) (snd root) = None ->
  goes g (launch iter w root name threads duration number record pod d) p -> p_main p = Gone false /\ p_log p = [] /\ p_disk p = d.
Proof. exact exit_unreadable. Qed.
Print Assumptions C88_unreadable.
Theorem C88_crash : forall iter w root name threads duration number record pod d g p text src s1, read_node (fst root) (snd root) = Some text -> parse text = Ok src ->
  eval_block w (s_exprs src) (St (Ctx [] (mextend [] (s_requests src)) []) []) = (Panic, s1) ->
  goes g (launch iter w root name threads duration number record pod d) p -> p_main p = Gone false /\ p_log p = map (pair Main) (s_trace s1) /\ p_disk p = d.
Proof. exact exit_crash. Qed.
Print Assumptions C88_crash.
Theorem C88_no_threads : forall iter w root name threads duration number record pod d g p src s1 body, loads w root src s1 -> mget name (s_tests src) = Some body -> threads = 0 ->
  goes g (launch iter w root (Some name) threads duration number record pod d) p -> p_main p = Gone false /\ p_log p = map (pair Main) (s_trace s1) /\ p_disk p = d.
Proof. exact exit_zero. Qed.
Print Assumptions C88_no_threads.
Theorem C88_uncreatable : forall iter w root name threads duration number pod d g p src s1 body id, loads w root src s1 -> mget name (s_tests src) = Some body ->
  id < threads -> g_creates g (record_path g pod id) = false ->
  goes g (launch iter w root (Some name) threads duration number true pod d) p ->
  p_main p <> Gone true /\ events_of Collector (p_log p) = [] /\
  forall i, id <= i -> events_of (Tester i) (p_log p) = [] /\ (i < threads -> mget (record_path g pod i) (p_disk p) = mget (record_path g pod i) d).
Proof. exact exit_uncreatable. Qed.
Print Assumptions C88_uncreatable.
Theorem C88_syntax : forall iter w root name threads duration number record pod d g p text e, read_node (fst root) (snd root) = Some text -> parse text = Err e ->
  goes g (launch iter w root name threads duration number record pod d) p -> p_main p = Gone true /\ p_log p = [(Main, Printed (perr_text e ++ [10]))] /\ p_disk p = d.
Proof. exact exit_syntax. Qed.
Print Assumptions C88_syntax.
Theorem C88_setup : forall iter w root name threads duration number record pod d g p text src e s1, read_node (fst root) (snd root) = Some text -> parse text = Ok src ->
  eval_block w (s_exprs src) (St (Ctx [] (mextend [] (s_requests src)) []) []) = (Err e, s1) ->
  goes g (launch iter w root name threads duration number record pod d) p -> p_main p = Gone true /\ p_log p = map (pair Main) (s_trace s1 ++ [complaint w e]) /\ p_disk p = d.
Proof. exact exit_setup. Qed.
Print Assumptions C88_setup.
Theorem C88_unknown : forall iter w root name threads duration number record pod d g p src s1, loads w root src s1 -> mget name (s_tests src) = None ->
  goes g (launch iter w root (Some name) threads duration number record pod d) p -> p_main p <> Gone false /\ p_disk p = d /\
  exists l, p_log p = map (pair Main) (s_trace s1 ++ [Printed (lit "Test not found: " ++ name ++ [10])]) ++ l /\ (l = [] \/ g_stat g = true /\ l = [(Collector, Printed [])]) /\
    (p_main p = Gone true -> l = if g_stat g then [(Collector, Printed [])] else []).
Proof. exact exit_unknown. Qed.
Print Assumptions C88_unknown.
Theorem C88_named : forall iter w root name threads duration number record pod d g p src s1 body, loads w root src s1 -> mget name (s_tests src) = Some body -> threads <> 0 ->
  (record = true -> forall id, id < threads -> g_creates g (record_path g pod id) = true) ->
  goes g (launch iter w root (Some name) threads duration number record pod d) p -> p_main p <> Gone false.
Proof. exact exit_named. Qed.
Print Assumptions C88_named.
Theorem C88_all : forall iter w root threads duration number record pod d g p src s1, loads w root src s1 -> N.of_nat (length (iter (s_tests src))) <= 2 ^ 32 ->
  (record = true -> forall id, id < N.of_nat (length (iter (s_tests src))) -> g_creates g (record_path g pod id) = true) ->
  goes g (launch iter w root None threads duration number record pod d) p -> p_main p <> Gone false.
Proof. exact exit_all. Qed.
Print Assumptions C88_all.
(** C88, the exit status does not tell whether the tests passed *)

Theorem C88_verdict_refuted : exists g a b c,
  goes g (single (lit "test t { missing }")) a /\ p_main a = Gone true /\ p_log a = [(Tester 0, Printed (lit "ident:missing not found" ++ [10]))] /\
  goes g (single (lit "test t { 1 / 0 }")) b /\ p_main b = Gone true /\ p_log b = [] /\
  goes g (single (lit "request r`GET http://h/`[status == 500] test t { r(); }")) c /\ p_main c = Gone true /\
    texts (p_log c) = [(Tester 0, lit "=== TEST  r" ++ [10] ++ lit "status == 500 => 200 == 500 => false" ++ [10] ++ lit "--- FAIL  r (10ns)" ++ [10]);
                       (Tester 0, lit "=== TEST  r" ++ [10] ++ lit "status == 500 => 200 == 500 => false" ++ [10] ++ lit "--- FAIL  r (10ns)" ++ [10])].
Proof. exact exit_blind. Qed.
Print Assumptions C88_verdict_refuted.
Example C88_example : read_node (lit "d") (NDir [(lit "a.fan", NFile (Some [255]))]) = None /\
  (exists src s1, parse (lit "print(""x""); 1 / 0") = Ok src /\ eval_block online (s_exprs src) (St (Ctx [] (mextend [] (s_requests src)) []) []) = (Panic, s1) /\ s_trace s1 = [Printed (lit "x")]) /\
  (exists src s1, parse (lit "print(""x""); y") = Ok src /\ eval_block online (s_exprs src) (St (Ctx [] (mextend [] (s_requests src)) []) []) = (Err (EIdentNotFound (lit "y")), s1) /\ s_trace s1 = [Printed (lit "x")]) /\
  (exists e, parse (lit "let 5") = Err e) /\
  (exists src s1, loads online (at_file (lit "test t { 1 }")) src s1 /\ mget (lit "t") (s_tests src) = Some [EInt 1] /\ mget (lit "u") (s_tests src) = None).
Proof. exact exit_cases. Qed.

Example C88_uncreatable_example : g_creates narrow (record_path narrow (lit "p") 1) = false /\ goes narrow demo_launch narrow_done /\ p_main narrow_done = Gone false /\
  map (fun k => length (events_of k (p_log narrow_done))) [Main; Tester 0; Tester 1; Collector] = [0; 4; 0; 0]%nat /\ mget (lit "out/p000001") (p_disk narrow_done) = None.
Proof. exact narrow_seen. Qed.

(** C89 *)

Theorem C89_bounded : forall iter w root name threads duration number record pod d g p, goes g (launch iter w root name threads duration number record pod d) p -> Acc (fun p' p => process_step g p p' /\ p' <> p) p.
Proof. exact process_bounded. Qed.
Print Assumptions C89_bounded.
Theorem C89_named_ends : forall iter w root name threads duration number record pod d g p src s1 body, loads w root src s1 -> mget name (s_tests src) = Some body ->
  (forall id k s bs, id < threads -> k < share duration number threads -> iterated (g_world g id) body (s_ctx s1) k s bs -> fst (eval_block (g_world g id) body s) <> Diverge) ->
  goes g (launch iter w root (Some name) threads duration number record pod d) p ->
  exists p' b, goes g p p' /\ p_main p' = Gone b /\ p_flag p' = p_flag p.
Proof. exact named_ends. Qed.
Print Assumptions C89_named_ends.
Theorem C89_all_ends : forall iter w root threads duration number record pod d g p src s1, loads w root src s1 -> N.of_nat (length (iter (s_tests src))) <= 2 ^ 32 ->
  (forall id name body, nth_error (iter (s_tests src)) (N.to_nat id) = Some (name, body) ->
    fst (eval_block (g_world g id) body (St (Ctx (c_vars (s_ctx s1)) (c_reqs (s_ctx s1)) []) [])) <> Diverge) ->
  goes g (launch iter w root None threads duration number record pod d) p ->
  exists p' b, goes g p p' /\ p_main p' = Gone b /\ p_flag p' = p_flag p.
Proof. exact all_ends. Qed.
Print Assumptions C89_all_ends.
Example C89_example : forall g c m threads, forall id k s bs, id < threads -> k < m -> iterated (g_world g id) [EInt 1] c k s bs -> fst (eval_block (g_world g id) [EInt 1] s) <> Diverge.
Proof. exact constant_ends. Qed.

