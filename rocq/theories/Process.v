(** cmd/src/command.rs:49-194 as a process: the main thread starts the others one by
    one, and all of them act on standard output, the network, the disk and the channel
    in any interleaving.  Refused output, signals and threads that
    cannot be started are added in Outage.v. *)
From Verif Require Export TestCommand.
Open Scope N_scope.

(** std::path::Path::join; command.rs:186 *)
Definition path_join (dir name : str) : str :=
  match name with
  | 47 :: _ => name
  | _ =>
      match rev dir with
      | [] => name
      | 47 :: _ => dir ++ name
      | _ => dir ++ [47] ++ name
      end
  end.

(** command.rs:58-75, 93-111, 130-142, 146-156 *)
Inductive who := Main | Tester (id : N) | Collector.

(** One visible action of a test thread: printing or sending a request (a [println!]
    holds the lock of standard output for the whole text), writing to its record
    file, sending records to the statistics thread; command.rs:96-108, 131-141 *)
Inductive action := Does (e : event) | Stores (b : bytes) | Sends (rs : list record).

(** A test thread: what is left of the actions of an iteration, and what it is
    after them; command.rs:86-112, 127-143 *)
Record tester := Test {
  te_job : job;
  te_env : env;                       (* the world this thread sees *)
  te_path : option str;               (* its record file *)
  te_accept : list (option nat);      (* how many bytes the next writes to it take *)
  te_number : N;
  te_state : st;
  te_phase : phase;
  te_todo : list action
}.

(** command.rs:76-161 *)
Inductive main_phase :=
| Starting (js : list job)   (* threads still to be started, 86-112 and 127-143 *)
| Joining                    (* 146-160 *)
| Aborting                   (* a panic: 165, 189 *)
| Gone (success : bool)      (* the process ended with this status *)
| Stuck.                     (* the top-level expressions never end, 60-63 *)

(** command.rs:49-161 *)
Record process := Process {
  p_main : main_phase;
  p_testers : list tester;            (* started so far *)
  p_flag : bool;                      (* continuous *)
  p_queue : list (list record);
  p_stats : stats;
  p_reported : bool;                  (* the statistics thread got to its end *)
  p_log : list (who * event);         (* standard output and requests, in order *)
  p_disk : amap bytes                 (* the files and their contents *)
}.

(** What the command line and the outside decide; command.rs:49-57, 184-200 *)
Record setting := Setting {
  g_stat : bool;
  g_dir : str;                            (* the record directory *)
  g_creates : str -> bool;                (* File::create succeeds *)
  g_accepts : str -> list (option nat);   (* bytes taken by each write to a file *)
  g_world : N -> env;
  g_order : list str -> list str;         (* iteration order of the statistics *)
  g_heeds : bool                          (* ctrlc::set_handler succeeds, 197 *)
}.

(** what was done between two states; command.rs:96 *)
Definition since (s s1 : st) : list action := map Does (skipn (length (s_trace s)) (s_trace s1)).
(** command.rs:104, 138 *)
Definition record_lines (rs : list record) : list event := map (fun r => Printed (show_record r ++ [10])) rs.
(** command.rs:105-107, 139-141 *)
Definition puts (t : tester) (rs : list record) (number : N) : list action :=
  match te_path t with
  | Some _ => [Stores (block rs (j_name (te_job t)) (j_thread (te_job t)) number)]
  | None => []
  end.

(** command.rs:96-109, or 131-141 when there is no limit: the actions of an iteration
    and the thread after it *)
Definition iteration (stat : bool) (t : tester) : tester :=
  let after number s phase todo := Test (te_job t) (te_env t) (te_path t) (te_accept t) number s phase todo in
  let s := te_state t in
  match eval_block (te_env t) (j_body (te_job t)) s, j_limit (te_job t) with
  | (Ok _, s1), Some _ =>
      let (rs, c) := ctx_records (s_ctx s1) in
      after (te_number t + 1) (St c (s_trace s1 ++ record_lines rs)) AtHead
        (since s s1 ++ map Does (record_lines rs) ++ puts t rs (te_number t) ++ (if stat then [Sends rs] else []))
  | (Err e, s1), Some _ =>
      let x := Printed (everr_text (e_host (te_env t)) e ++ [10]) in
      after (te_number t) (St (s_ctx s1) (s_trace s1 ++ [x])) Finished (since s s1 ++ [Does x])
  | (Ok _, s1), None =>
      let (rs, c) := ctx_records (s_ctx s1) in
      after (te_number t) (St c (s_trace s1 ++ record_lines rs)) Finished (since s s1 ++ map Does (record_lines rs) ++ puts t rs 0)
  | (Err e, s1), None =>
      let (rs, c) := ctx_records (s_ctx s1) in
      let x := Printed (everr_text (e_host (te_env t)) e ++ [10]) in
      after (te_number t) (St c (s_trace s1 ++ [x] ++ record_lines rs)) Finished
        (since s s1 ++ [Does x] ++ map Does (record_lines rs) ++ puts t rs 0)
  | (Panic, s1), _ => after (te_number t) s1 Crashed (since s s1)
  | (Diverge, s1), _ => after (te_number t) s1 Hung (since s s1)
  end.

(** one move of a test thread: (what it does, the thread afterwards); None when it has
    ended or hangs; command.rs:93-111, 130-142 *)
Definition tester_move (stat flag : bool) (t : tester) : option (option action * tester) :=
  let with_phase p := Test (te_job t) (te_env t) (te_path t) (te_accept t) (te_number t) (te_state t) p [] in
  match te_todo t, te_phase t with
  | a :: rest, _ =>
      let accept := match a with Stores _ => tl (te_accept t) | _ => te_accept t end in
      Some (Some a, Test (te_job t) (te_env t) (te_path t) accept (te_number t) (te_state t) (te_phase t) rest)
  | [], AtHead =>   (* 95 *)
      match j_limit (te_job t) with
      | Some m => Some (None, with_phase (if flag && (te_number t <? m) then InBody else Finished))
      | None => None
      end
  | [], InBody => Some (None, iteration stat t)
  | [], _ => None
  end.

(** the effect of an action on the record file: [accept] says what the next write
    takes (writer.rs:122); command.rs:105-107 *)
Definition disk_after (t : tester) (a : option action) (d : amap bytes) : amap bytes :=
  match a, te_path t with
  | Some (Stores b), Some path =>
      let old := match mget path d with Some x => x | None => [] end in
      mset path (f_data (file_write (File old (te_accept t)) b)) d
  | _, _ => d
  end.

(** the thread has left its closure, so that its sender is dropped and it can be
    joined; command.rs:110-111, 159 *)
Definition gone (t : tester) : bool :=
  match te_todo t, te_phase t with [], (Finished | Crashed) => true | _, _ => false end.

(** command.rs:91-94 and 128-130, the record file (if any) being created by [writer] *)
Definition new_tester (g : setting) (j : job) : tester :=
  let path := option_map (path_join (g_dir g)) (j_file j) in
  Test j (g_world g (j_thread j)) path (match path with Some p => f_accept (writer_new (g_accepts g p)) | None => [] end)
       0 (St (j_ctx j) []) (match j_limit j with Some _ => AtHead | None => InBody end) [].
(** File::create empties or creates the file, Writer::new writes the header; command.rs:184-194 *)
Definition disk_created (g : setting) (path : option str) (d : amap bytes) : amap bytes :=
  match path with Some p => mset p (f_data (writer_new (g_accepts g p))) d | None => d end.

(** the other threads run until the process ends; command.rs:158-161 *)
Definition running (m : main_phase) : bool := match m with Gone _ => false | _ => true end.

(** One step of the process; command.rs:76-161 *)
Inductive process_step (g : setting) : process -> process -> Prop :=
| ps_start j js ts flag q m r l d :   (* 86-112, 127-143 *)
    (forall p, te_path (new_tester g j) = Some p -> g_creates g p = true) ->
    process_step g (Process (Starting (j :: js)) ts flag q m r l d)
      (Process (Starting js) (ts ++ [new_tester g j]) flag q m r l (disk_created g (te_path (new_tester g j)) d))
| ps_no_file j js ts flag q m r l d p :   (* 188-189 *)
    te_path (new_tester g j) = Some p -> g_creates g p = false ->
    process_step g (Process (Starting (j :: js)) ts flag q m r l d) (Process Aborting ts flag q m r l d)
| ps_started ts flag q m r l d :   (* 146-157: the statistics thread is started, the sender dropped *)
    process_step g (Process (Starting []) ts flag q m r l d) (Process Joining ts flag q m r l d)
| ps_tester mp ts1 t ts2 flag q m r l d a t' :
    running mp = true -> tester_move (g_stat g) flag t = Some (a, t') ->
    process_step g (Process mp (ts1 ++ t :: ts2) flag q m r l d)
      (Process mp (ts1 ++ t' :: ts2) flag (match a with Some (Sends rs) => q ++ [rs] | _ => q end) m r
               (match a with Some (Does e) => l ++ [(Tester (j_thread (te_job t)), e)] | _ => l end) (disk_after t a d))
| ps_stop ts flag q m r l d :   (* the interrupt handler or the timer, 114-119 *)
    process_step g (Process Joining ts flag q m r l d) (Process Joining ts false q m r l d)
| ps_receive ts flag rs q m l d :   (* 149-153 *)
    g_stat g = true ->
    process_step g (Process Joining ts flag (rs :: q) m false l d) (Process Joining ts flag q (stats_add_records m rs) false l d)
| ps_report ts flag m l d :   (* 149, 154: no thread has a sender any more; without a name none has one, 126-143 *)
    g_stat g = true -> Forall (fun t => j_limit (te_job t) = None \/ gone t = true) ts ->
    process_step g (Process Joining ts flag [] m false l d)
      (Process Joining ts flag [] m true (l ++ [(Collector, Printed (show_stats (g_order g) m))]) d)
| ps_exit ts flag q m r l d :   (* 158-161 *)
    Forall (fun t => gone t = true) ts -> r = g_stat g ->
    process_step g (Process Joining ts flag q m r l d) (Process (Gone true) ts flag q m r l d)
| ps_die ts flag q m r l d :   (* the panic reaches the end of main *)
    process_step g (Process Aborting ts flag q m r l d) (Process (Gone false) ts flag q m r l d).

(** command.rs:58-76 and main.rs:61-65: what happens before any thread is started.
    [root] is the path given, or the current directory; [record] the record directory
    and [pod] the variable POD.  A panic (165, or evaluating, or zero threads) ends the
    process. *)
Definition launch (iter : list (str * list expr) -> list (str * list expr)) (w : env) (root : str * node)
    (name : option str) (threads : N) (duration : option N) (number : N) (record : bool) (pod : str) (d : amap bytes) : process :=
  let before m l := Process m [] true [] [] false (map (pair Main) l) d in
  match read_node (fst root) (snd root) with
  | None => before (Gone false) []
  | Some text =>
      match main_test iter w text name threads duration number (if record then Some pod else None) with
      | (Ok (Some js), s) => before (Starting js) (s_trace s)
      | (Ok None, s) => before (Gone true) (s_trace s)
      | (Err _, s) => before (Gone false) (s_trace s)   (* does not happen *)
      | (Panic, s) => before (Gone false) (s_trace s)
      | (Diverge, s) => before Stuck (s_trace s)
      end
  end.
