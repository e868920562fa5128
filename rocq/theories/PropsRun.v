(** C52-C62 *)
From Verif Require Import SpecRun StatProofs SourceProofs RunProofs RunTop RunMore RunExamples TextMore WriterProofs AvroProofs RecordProofs ContainerProofs EvalExamples ValueExamples.
From Coq Require Import Permutation Lia.
Open Scope N_scope.

(** C52 *)

Theorem C52_exact : forall l n, match samples_of n l with
  | [] => mget n (gather l) = None
  | ms => exists s, mget n (gather l) = Some s /\ summary ms s
  end.
Proof. exact stats_exact. Qed.
Print Assumptions C52_exact.
Theorem C52_bounds : forall ms s, summary ms s -> st_min s <= st_avg s <= st_max s.
Proof. exact stats_bounds. Qed.
Print Assumptions C52_bounds.
Example C52_example : mget (lit "a") (gather [(lit "a", 3); (lit "b", 5); (lit "a", 4)]) = Some (Stat 2 7 3 4 3) /\
  mget (lit "c") (gather [(lit "a", 3); (lit "b", 5); (lit "a", 4)]) = None /\ samples_of (lit "a") [(lit "a", 3); (lit "b", 5); (lit "a", 4)] = [3; 4].
Proof. vm_compute. repeat split. Qed.

(** C53 *)

Theorem C53_any_order : forall a b n, Permutation a b -> mget n (gather a) = mget n (gather b).
Proof. exact stats_any_order. Qed.
Print Assumptions C53_any_order.
Example C53_example : Permutation [(lit "a", 3); (lit "a", 4)] [(lit "a", 4); (lit "a", 3)].
Proof. apply perm_swap. Qed.

(** C54 *)

Theorem C54_accepted : forall checks s x c v k, s = x ++ [c] -> unsigned (2 ^ 64 - 1) x v -> unit_seconds c k ->
  parse_duration checks s = if v * k <? 2 ^ 64 then Ok (v * k) else if checks then Panic else Ok ((v * k) mod 2 ^ 64).
Proof. exact duration_accepted. Qed.
Print Assumptions C54_accepted.
Theorem C54_rejected : forall checks s, (exists e, parse_duration checks s = Err e) <->
  ~ exists x c v k, s = x ++ [c] /\ unsigned (2 ^ 64 - 1) x v /\ unit_seconds c k.
Proof. exact duration_rejected. Qed.
Print Assumptions C54_rejected.
Theorem C54_message : forall checks s e, parse_duration checks s = Err e ->
  (s = [] /\ duration_err_text e = lit "Invalid number: ") \/
  exists x c, s = x ++ [c] /\
    ((forall v, ~ unsigned (2 ^ 64 - 1) x v) /\ duration_err_text e = lit "Invalid number: " ++ x \/
     (exists v, unsigned (2 ^ 64 - 1) x v) /\ (forall k, ~ unit_seconds c k) /\
     duration_err_text e = lit "Unknown time unit: " ++ [c] ++ lit ", supported units: s, m, h").
Proof. exact duration_message. Qed.
Print Assumptions C54_message.
Example C54_example : parse_duration true (lit "90m") = Ok 5400 /\ parse_duration true (lit "+7s") = Ok 7 /\ parse_duration true (lit "7") = Err (InvalidNumber []) /\
  parse_duration true (lit "7d") = Err (UnknownUnit 100) /\ parse_duration true (lit "18446744073709551615h") = Panic /\
  parse_duration false (lit "18446744073709551615h") = Ok 18446744073709548016.
Proof. vm_compute. repeat split. Qed.

(** C55 *)

Theorem C55_source_text : forall name n, distinct_names n -> exists l, sources [name] n l /\ (forall l', sources [name] n l' -> l' = l) /\
  forall text, read_node name n = Some text <-> listable n /\ exists ts, Forall2 (fun x t => scalars t /\ snd x = Some (utf8 t)) l ts /\ text = List.concat ts.
Proof. exact source_text. Qed.
Print Assumptions C55_source_text.
Example C55_example : distinct_names demo_tree /\ listable demo_tree /\ read_node (lit "d") demo_tree = Some (lit "1234") /\
  read_node (lit "d") (NDir [(lit "a.fan", NFile None)]) = None /\ read_node (lit "d") (NDir [(lit "b.txt", NSealed)]) = None.
Proof. exact tree_example. Qed.

(** C56.  [a] in [stands] counts the iterations started, failed ones included; every
    run comes to an end, whatever the schedule. *)

Theorem C56_numbers : forall number threads, (threads = 0 -> maximun_of number threads = Panic) /\ (0 < threads -> maximun_of number threads = Ok (number / threads)) /\
  (0 < threads -> threads * (number / threads) <= number /\ (threads * (number / threads) = number <-> (threads | number)) /\ (number < threads -> threads * (number / threads) = 0)).
Proof. exact iteration_numbers. Qed.
Print Assumptions C56_numbers.
Theorem C56_at_most : forall (order : list str -> list str) (name : str) (body : list expr) (c : ctx) (worlds : N -> env) (files : N -> option file) (threads maximun : N) (stat : bool) r, executes order name body maximun stat (run_start c worlds files threads) r -> crew worlds threads (run_threads r) /\
  Forall (fun t => exists bs a, stands name body c files t bs a /\ th_number t = N.of_nat (length bs) /\ th_number t <= a <= maximun) (run_threads r).
Proof. exact run_stands. Qed.
Print Assumptions C56_at_most.

Theorem C56_exactly : forall (order : list str -> list str) (name : str) (body : list expr) (c : ctx) (worlds : N -> env) (files : N -> option file) (threads maximun : N) (stat : bool) r, executes order name body maximun stat (run_start c worlds files threads) r -> ended r -> run_flag r = true -> (forall id, id < threads -> never_fails (worlds id) body c) ->
  Forall (fun t => th_phase t = Finished /\ th_number t = maximun) (run_threads r) /\ total (map th_number (run_threads r)) = threads * maximun.
Proof. exact run_complete. Qed.
Print Assumptions C56_exactly.

Theorem C56_bounded : forall (order : list str -> list str) (name : str) (body : list expr) (c : ctx) (worlds : N -> env) (files : N -> option file) (threads maximun : N) (stat : bool), exists measure : run -> N, forall r r', executes order name body maximun stat (run_start c worlds files threads) r -> run_step order name body maximun stat r r' ->
  measure r' < measure r \/ r' = Run (run_threads r) false (run_queue r) (run_stats r) (run_stat_phase r).
Proof. exact run_bounded. Qed.
Print Assumptions C56_bounded.

Theorem C56_onward : forall (order : list str -> list str) (name : str) (body : list expr) (c : ctx) (worlds : N -> env) (files : N -> option file) (threads maximun : N) (stat : bool) r, executes order name body maximun stat (run_start c worlds files threads) r -> ~ over stat r -> exists r', run_step order name body maximun stat r r' /\ run_flag r' = run_flag r /\ r' <> r.
Proof. exact run_onward. Qed.
Print Assumptions C56_onward.

Theorem C56_ends : forall (order : list str -> list str) (name : str) (body : list expr) (c : ctx) (worlds : N -> env) (files : N -> option file) (threads maximun : N) (stat : bool) r, executes order name body maximun stat (run_start c worlds files threads) r -> exists r', executes order name body maximun stat r r' /\ run_flag r' = run_flag r /\ over stat r'.
Proof. exact run_ends. Qed.
Print Assumptions C56_ends.

Example C56_example : executes id_order (lit "t") demo_body 2 true demo_start demo_end /\ ended demo_end /\ run_flag demo_end = true /\
  map th_number (run_threads demo_end) = [2; 2] /\ maximun_of 5 2 = Ok 2 /\ (forall w c, never_fails w [EInt 1] c).
Proof. split; [exact demo_reached|]. split; [exact demo_ended|]. repeat split; try (vm_compute; reflexivity). exact constant_never_fails. Qed.

(** C57 *)

Theorem C57_stopped : forall (order : list str -> list str) (name : str) (body : list expr) (c : ctx) (worlds : N -> env) (files : N -> option file) (threads maximun : N) (stat : bool) r r', executes order name body maximun stat (run_start c worlds files threads) r -> run_flag r = false -> executes order name body maximun stat r r' -> run_flag r' = false /\
  Forall2 (fun t t' => exists bs bs' a, stands name body c files t bs a /\ stands name body c files t' bs' a /\ th_id t' = th_id t /\ th_env t' = th_env t /\
    (th_phase t <> InBody -> bs' = bs /\ th_state t' = th_state t /\ th_file t' = th_file t /\ th_phase t' <> InBody) /\
    (live (th_phase t') = false -> th_phase t = InBody -> forall v s1, eval_block (th_env t) body (th_state t) = (Ok v, s1) ->
       bs' = bs ++ [c_recs (s_ctx s1)] /\ th_number t' = th_number t + 1)) (run_threads r) (run_threads r').
Proof. exact run_stopped. Qed.
Print Assumptions C57_stopped.

Example C57_example : executes id_order (lit "t") demo_body 2 true demo_start demo_stopped /\ run_flag demo_stopped = false /\
  executes id_order (lit "t") demo_body 2 true demo_stopped demo_after /\ map th_phase (run_threads demo_stopped) = [InBody; AtHead] /\
  map (fun t => (th_number t, th_phase t)) (run_threads demo_after) = [(1, Finished); (0, Finished)].
Proof. split; [exact demo_stopped_reached|]. split; [reflexivity|]. split; [apply drive_executes|]. split; apply demo_after_view. Qed.

(** C58.  [C56_at_most] says what a thread is after [k] iterations in terms of its own
    world alone; so nothing else about the run matters. *)

Theorem C58_alone : forall (order : list str -> list str) (name : str) (body : list expr) (c : ctx) (worlds : N -> env) (files : N -> option file) (threads maximun : N) (stat : bool) r, executes order name body maximun stat (run_start c worlds files threads) r -> crew worlds threads (run_threads r) /\
  Forall (fun t => exists bs a, stands name body c files t bs a /\ th_number t = N.of_nat (length bs) /\ th_number t <= a <= maximun) (run_threads r).
Proof. exact run_stands. Qed.
Print Assumptions C58_alone.

Theorem C58_isolated : forall order order' name body c worlds worlds' files files' threads threads' maximun maximun' stat stat' r r' t t', executes order name body maximun stat (run_start c worlds files threads) r -> executes order' name body maximun' stat' (run_start c worlds' files' threads') r' ->
  In t (run_threads r) -> In t' (run_threads r') -> th_id t = th_id t' -> worlds (th_id t) = worlds' (th_id t) -> files (th_id t) = files' (th_id t) ->
  th_number t = th_number t' -> live (th_phase t) = true -> live (th_phase t') = true ->
  th_state t = th_state t' /\ th_file t = th_file t'.
Proof. exact threads_isolated. Qed.
Print Assumptions C58_isolated.
Example C58_example : map (fun t => mget (lit "n") (c_vars (s_ctx (th_state t)))) (run_threads demo_end) = [Some (VInt 2); Some (VInt 2)] /\
  live (th_phase (start_thread demo_ctx online None 0)) = true.
Proof. split; [apply demo_view|reflexivity]. Qed.

(** C59 *)

Theorem C59_file : forall (order : list str -> list str) (name : str) (body : list expr) (c : ctx) (worlds : N -> env) (files : N -> option file) (threads maximun : N) (stat : bool) r t, executes order name body maximun stat (run_start c worlds files threads) r -> In t (run_threads r) -> files (th_id t) = Some (writer_new []) -> threads <= 2 ^ 32 -> maximun < 2 ^ 32 ->
  exists f bs s, th_file t = Some f /\ iterated (worlds (th_id t)) body c (th_number t) s bs /\
    (Forall (Forall fits) bs -> small (f_data f) -> exists kvs sync blks, container (f_data f) kvs sync blks /\ N.of_nat (length blks) = th_number t /\
      forall k blk, nth_error blks k = Some blk -> exists rs, nth_error bs k = Some rs /\ fst blk = Z.of_nat (length rs) /\
        items Counted record_ty (snd blk) (d_batch name (th_id t) (N.of_nat k) rs)).
Proof. exact thread_file. Qed.
Print Assumptions C59_file.

Theorem C59_failed : forall (order : list str -> list str) (name : str) (body : list expr) (c : ctx) (worlds : N -> env) (files : N -> option file) (threads maximun : N) (stat : bool) r r' i t, executes order name body maximun stat (run_start c worlds files threads) r -> nth_error (run_threads r) i = Some t -> th_phase t = InBody ->
  forall e s1, eval_block (th_env t) body (th_state t) = (Err e, s1) -> executes order name body maximun stat r r' ->
  exists t', nth_error (run_threads r') i = Some t' /\
    (t' = t \/ th_phase t' = Finished /\ th_number t' = th_number t /\ th_file t' = th_file t /\
      th_state t' = St (s_ctx s1) (s_trace s1 ++ [Printed (everr_text (e_host (th_env t)) e ++ [10])])).
Proof. exact failed_iteration. Qed.
Print Assumptions C59_failed.

Example C59_example : demo_files 1 = Some (writer_new []) /\
  map (fun t => (th_number t, th_phase t, length (c_recs (s_ctx (th_state t))))) (run_threads fail_end) = [(1, Finished, 1%nat); (1, Finished, 1%nat)].
Proof. split; [reflexivity|apply fail_view]. Qed.

(** C60 *)

Theorem C60_printed : forall (name : str) (body : list expr) (c : ctx) (worlds : N -> env) (files : N -> option file) (threads maximun : N) (stat : bool) order r text, (forall ks, Permutation (order ks) ks) -> executes order name body maximun stat (run_start c worlds files threads) r -> run_stat_phase r = Printed_ text ->
  ended r /\ exists bss, Forall2 (fun t bs => exists a, stands name body c files t bs a) (run_threads r) bss /\ stat_report (flat_map samples (List.concat bss)) text.
Proof. exact printed_stats. Qed.
Print Assumptions C60_printed.

Theorem C60_schedule : forall (name : str) (body : list expr) (c : ctx) (worlds : N -> env) (files : N -> option file) (threads maximun : N) (stat : bool) order order' r r' text text', (forall ks, Permutation (order ks) ks) -> (forall ks, Permutation (order' ks) ks) ->
  executes order name body maximun stat (run_start c worlds files threads) r -> executes order' name body maximun stat (run_start c worlds files threads) r' -> run_stat_phase r = Printed_ text -> run_stat_phase r' = Printed_ text' -> run_flag r = true -> run_flag r' = true ->
  exists l, stat_report l text /\ stat_report l text'.
Proof. exact stats_schedule. Qed.
Print Assumptions C60_schedule.

Example C60_example : (forall ks, Permutation (id_order ks) ks) /\ executes id_order (lit "t") demo_body 2 true demo_start demo_end /\ run_flag demo_end = true /\
  run_stat_phase demo_end = Printed_ (lit "get count=4  sum=0  avg=0  max=0  min=0" ++ [10]).
Proof. split; [intros ks; apply Permutation_refl|]. split; [exact demo_reached|]. split; apply demo_view. Qed.

(** C61 *)

Theorem C61_each_once : forall worlds files c tests, map fst (run_all_from worlds files c 0 tests) = map fst tests /\
  forall i n x, nth_error (run_all_from worlds files c 0 tests) i = Some (n, x) <->
    exists body, nth_error tests i = Some (n, body) /\ ran_once (worlds (N.of_nat i)) c (files (N.of_nat i)) n (N.of_nat i) body x.
Proof. exact run_all_tests. Qed.
Print Assumptions C61_each_once.
Theorem C61_tests : forall w text tests c s, test_setup w text = (Ok (Some (tests, c)), s) -> exists src v s1, parse text = Ok src /\ tests = s_tests src /\ NoDup (map fst tests) /\
  eval_block w (s_exprs src) (St (Ctx [] (mextend [] (s_requests src)) []) []) = (Ok v, s1) /\ c = s_ctx s1 /\ s = s1.
Proof. exact setup_tests. Qed.
Print Assumptions C61_tests.
Example C61_example : map (fun p => (fst p, option_map (fun x => fst (fst x)) (snd p))) all_view = [(lit "a", Some 1%nat); (lit "b", Some 1%nat)].
Proof. exact all_example. Qed.

(** C62.  A line that does not parse leaves the context as it was; what other lines
    do is in [line_done]. *)

Theorem C62_result : forall w input s, exists pre rest s0, input = pre ++ rest /\ session w pre s s0 /\
  ((rest = [] /\ repl w input s = (Diverge, s0)) \/
   (exists more, rest = Some (lit "exit") :: more /\ repl w input s = (Ok tt, s0)) \/
   (exists l more s1, rest = Some l :: more /\ ~ blank l /\ l <> lit "exit" /\
     ((line_done w l s0 (LPanic s1) /\ repl w input s = (Panic, s1)) \/ (line_done w l s0 (LHang s1) /\ repl w input s = (Diverge, s1))))).
Proof. exact repl_result. Qed.
Print Assumptions C62_result.
Theorem C62_exit : forall w pre more s s', session w pre s s' -> repl w (pre ++ Some (lit "exit") :: more) s = (Ok tt, s').
Proof. exact repl_exit. Qed.
Print Assumptions C62_exit.
Theorem C62_parts : forall w a b s s', session w (a ++ b) s s' <-> exists s1, session w a s s1 /\ session w b s1 s'.
Proof. exact repl_parts. Qed.
Print Assumptions C62_parts.
Theorem C62_syntax_error : forall w l s e, parse l = Err e -> forall s', line_done w l s (LPrinted s') -> s_ctx s' = s_ctx s.
Proof. exact repl_line. Qed.
Print Assumptions C62_syntax_error.
Example C62_example : exists s, session online (firstn 6 session_lines) (St ctx_new []) s /\ c_vars (s_ctx s) = [(lit "a", VInt 2)].
Proof. exact session_demo. Qed.

