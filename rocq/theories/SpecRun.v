(** What users know of a test run: statistics, arguments, source files, threads,
    the read-eval-print loop *)
From Verif Require Export Command SpecHttp SpecText SpecValue SpecWriter.
From Coq Require Export Sorted.
Open Scope N_scope.

(** ** statistics of a list of samples *)
Definition total (ms : list N) : N := fold_right N.add 0 ms.
Definition summary (ms : list N) (s : stat) : Prop :=
  st_count s = N.of_nat (length ms) /\ st_sum s = total ms /\
  In (st_max s) ms /\ Forall (fun x => x <= st_max s) ms /\
  In (st_min s) ms /\ Forall (fun x => st_min s <= x) ms /\
  st_avg s * st_count s <= st_sum s < (st_avg s + 1) * st_count s.
(** the samples of one name *)
Definition samples_of (n : str) (l : list (str * N)) : list N :=
  flat_map (fun p => if list_eq_dec N.eq_dec n (fst p) then [snd p] else []) l.
Definition gather (l : list (str * N)) : stats := fold_left (fun m p => stats_add m (fst p) (snd p)) l [].

(** ** durations *)
Definition unit_seconds (c : char) (k : N) : Prop := (c = 115 /\ k = 1) \/ (c = 109 /\ k = 60) \/ (c = 104 /\ k = 3600).

(** ** source files *)
(** the regular files of a tree, each with its path *)
Fixpoint files_at (path : list str) (n : node) : list (list str * option bytes) :=
  match n with
  | NFile c => [(path, c)]
  | NDir es => flat_map (fun e => files_at (path ++ [fst e]) (snd e)) es
  | NSealed | NOther => []
  end.
(** every directory of a tree can be listed *)
Fixpoint listable (n : node) : Prop :=
  match n with
  | NDir es => (fix all (l : list (str * node)) := match l with [] => True | e :: l' => listable (snd e) /\ all l' end) es
  | NSealed => False
  | _ => True
  end.
(** entries of a directory have different names *)
Fixpoint distinct_names (n : node) : Prop :=
  match n with
  | NDir es => NoDup (map fst es) /\ (fix all (l : list (str * node)) := match l with [] => True | e :: l' => distinct_names (snd e) /\ all l' end) es
  | _ => True
  end.
(** a path whose last name ends in .fan, something being before the dot *)
Definition fan_path (p : list str) : Prop := exists q stem, p = q ++ [stem ++ lit ".fan"] /\ stem <> [].
(** paths are compared name by name *)
Inductive path_lt : list str -> list str -> Prop :=
| pl_nil y b : path_lt [] (y :: b)
| pl_head x y a b : lex_lt x y -> path_lt (x :: a) (y :: b)
| pl_tail x a b : path_lt a b -> path_lt (x :: a) (x :: b).
(** [l] lists the source files in path order *)
Definition sources (path : list str) (n : node) (l : list (list str * option bytes)) : Prop :=
  (forall x, In x l <-> In x (files_at path n) /\ fan_path (fst x)) /\
  StronglySorted (fun a b => path_lt (fst a) (fst b)) l.

(** ** threads *)
(** [iterated w body c k s bs]: running [body] alone from a copy of the context [c],
    [k] times without failure, leaves [s], the iterations having gathered [bs] *)
Inductive iterated (w : env) (body : list expr) (c : ctx) : N -> st -> list (list record) -> Prop :=
| it_start : iterated w body c 0 (St (Ctx (c_vars c) (c_reqs c) []) []) []
| it_next k s bs v s1 : iterated w body c k s bs -> eval_block w body s = (Ok v, s1) ->
    iterated w body c (k + 1)
      (St (Ctx (c_vars (s_ctx s1)) (c_reqs (s_ctx s1)) [])
          (s_trace s1 ++ map (fun r => Printed (show_record r ++ [10])) (c_recs (s_ctx s1))))
      (bs ++ [c_recs (s_ctx s1)]).
(** the batches numbered from 0 *)
Definition numbered (name : str) (id : N) (bs : list (list record)) : list batch :=
  map (fun p => Batch name id (N.of_nat (fst p)) (snd p)) (combine (seq 0 (length bs)) bs).
Definition write_batches (f : file) (bs : list batch) : file :=
  fold_left (fun f b => writer_write f (b_records b) (b_name b) (b_thread b) (b_number b)) bs f.
(** what a thread is after [bs], having started [a] iterations *)
Definition stands (name : str) (body : list expr) (c : ctx) (files : N -> option file) (t : thread) (bs : list (list record)) (a : N) : Prop :=
  exists s, iterated (th_env t) body c (th_number t) s bs /\
    th_file t = option_map (fun f => write_batches f (numbered name (th_id t) bs)) (files (th_id t)) /\
    match th_phase t with
    | AtHead => th_state t = s /\ a = th_number t
    | InBody => th_state t = s /\ a = th_number t + 1
    | Finished => (th_state t = s /\ a = th_number t) \/
        exists e s1, eval_block (th_env t) body s = (Err e, s1) /\ a = th_number t + 1 /\
          th_state t = St (s_ctx s1) (s_trace s1 ++ [Printed (everr_text (e_host (th_env t)) e ++ [10])])
    | Crashed => eval_block (th_env t) body s = (Panic, th_state t) /\ a = th_number t + 1
    | Hung => eval_block (th_env t) body s = (Diverge, th_state t) /\ a = th_number t + 1
    end.

(** executions *)
Section Executions.
Variable order : list str -> list str.
Variable name : str.
Variable body : list expr.
Variable maximun : N.
Variable stat : bool.
Inductive executes : run -> run -> Prop :=
| ex_refl r : executes r r
| ex_step r r1 r2 : executes r r1 -> run_step order name body maximun stat r1 r2 -> executes r r2.
End Executions.
Definition ended (r : run) : Prop := Forall (fun t => live (th_phase t) = false) (run_threads r).
(** nothing is left to do: the threads ended and, unless one hangs, the statistics are printed *)
Definition over (stat : bool) (r : run) : Prop :=
  ended r /\ (stat = true -> (forall t, In t (run_threads r) -> th_phase t <> Hung) -> exists text, run_stat_phase r = Printed_ text).
(** no iteration of the test fails, however often it ran before *)
Definition never_fails (w : env) (body : list expr) (c : ctx) : Prop :=
  forall k s bs, iterated w body c k s bs -> exists v s1, eval_block w body s = (Ok v, s1).
(** the samples of records: the name of the request and the milliseconds it took *)
Definition samples (rs : list record) : list (str * N) := map (fun r => (r_name r, t_total (r_time r) / 1000000)) rs.
(** the line of a name: number, sum, average, maximum and minimum *)
Definition stat_line (name : str) (s : stat) : str :=
  name ++ lit " count=" ++ show_N (st_count s) ++ lit "  sum=" ++ show_N (st_sum s) ++ lit "  avg=" ++ show_N (st_avg s) ++
  lit "  max=" ++ show_N (st_max s) ++ lit "  min=" ++ show_N (st_min s) ++ [10].
(** the lines of the statistics printed for the samples [l]: one per name *)
Definition stat_report (l : list (str * N)) (text : str) : Prop :=
  exists lines : list (str * stat),
    NoDup (map fst lines) /\
    (forall n, In n (map fst lines) <-> In n (map fst l)) /\
    Forall (fun p => summary (samples_of (fst p) l) (snd p)) lines /\
    text = List.concat (map (fun p => stat_line (fst p) (snd p)) lines).
(** the world and index of the threads of a run *)
Definition crew (worlds : N -> env) (threads : N) (ts : list thread) : Prop :=
  map th_id ts = map N.of_nat (seq 0 (N.to_nat threads)) /\ Forall (fun t => th_env t = worlds (th_id t)) ts.

(** ** one test, once: what it gathers, prints and writes, or nothing when it crashes or hangs *)
Inductive ran_once (w : env) (c : ctx) (f : option file) (name : str) (id : N) (body : list expr) : option (list record * st * option file) -> Prop :=
| ro_result r s1 printed : eval_block w body (St (Ctx (c_vars c) (c_reqs c) []) []) = (r, s1) ->
    (exists v, r = Ok v /\ printed = []) \/ (exists e, r = Err e /\ printed = [Printed (everr_text (e_host w) e ++ [10])]) ->
    ran_once w c f name id body (Some (c_recs (s_ctx s1),
      St (Ctx (c_vars (s_ctx s1)) (c_reqs (s_ctx s1)) [])
         (s_trace s1 ++ printed ++ map (fun r => Printed (show_record r ++ [10])) (c_recs (s_ctx s1))),
      option_map (fun f => write_batches f [Batch name id 0 (c_recs (s_ctx s1))]) f))
| ro_none r s1 : eval_block w body (St (Ctx (c_vars c) (c_reqs c) []) []) = (r, s1) -> r = Panic \/ r = Diverge -> ran_once w c f name id body None.

(** ** the read-eval-print loop *)
(** what a line does: [LPrinted s] and the loop goes on *)
Inductive line_end := LPrinted (s : st) | LPanic (s : st) | LHang (s : st).
Definition printing (t : str) (s : st) : st := St (s_ctx s) (s_trace s ++ [Printed (t ++ [10])]).
Inductive line_done (w : env) (text : str) (s : st) : line_end -> Prop :=
| ld_syntax e : parse text = Err e -> line_done w text s (LPrinted (printing (perr_text e) s))
| ld_value src v s1 : parse text = Ok src ->
    eval_block w (s_exprs src) (St (Ctx (c_vars (s_ctx s)) (mextend (c_reqs (s_ctx s)) (s_requests src)) (c_recs (s_ctx s))) (s_trace s)) = (Ok v, s1) ->
    line_done w text s (LPrinted (printing (show_value (e_host w) v) s1))
| ld_error src e s1 : parse text = Ok src ->
    eval_block w (s_exprs src) (St (Ctx (c_vars (s_ctx s)) (mextend (c_reqs (s_ctx s)) (s_requests src)) (c_recs (s_ctx s))) (s_trace s)) = (Err e, s1) ->
    line_done w text s (LPrinted (printing (everr_text (e_host w) e) s1))
| ld_panic src s1 : parse text = Ok src ->
    eval_block w (s_exprs src) (St (Ctx (c_vars (s_ctx s)) (mextend (c_reqs (s_ctx s)) (s_requests src)) (c_recs (s_ctx s))) (s_trace s)) = (Panic, s1) ->
    line_done w text s (LPanic s1)
| ld_hang src s1 : parse text = Ok src ->
    eval_block w (s_exprs src) (St (Ctx (c_vars (s_ctx s)) (mextend (c_reqs (s_ctx s)) (s_requests src)) (c_recs (s_ctx s))) (s_trace s)) = (Diverge, s1) ->
    line_done w text s (LHang s1)
| ld_parse_panic : parse text = Panic -> line_done w text s (LPanic s)
| ld_parse_hang : parse text = Diverge -> line_done w text s (LHang s).
(** [session w lines s s']: the lines, none of them [exit], one after another *)
Inductive session (w : env) : list (option str) -> st -> st -> Prop :=
| se_nil s : session w [] s s
| se_unreadable ls s s' : session w ls s s' -> session w (None :: ls) s s'
| se_blank l ls s s' : blank l -> session w ls s s' -> session w (Some l :: ls) s s'
| se_line l ls s s1 s' : ~ blank l -> l <> lit "exit" -> line_done w l s (LPrinted s1) -> session w ls s1 s' -> session w (Some l :: ls) s s'.
