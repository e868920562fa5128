(** The [test] command when standard output cannot be written, signals arrive or a thread
    cannot be started; cmd/src/command.rs:49-161, 196-200.

    [print!] and [println!] panic when standard output fails: a thread that prints in
    vain is gone with what it still had to do, the main thread takes the process with
    it.  The log is what standard output accepted; a part of a refused text may have
    been written all the same, and text without a line feed may still be in its buffer
    when a signal ends the process. *)
From Verif Require Export Process.
Open Scope N_scope.

(** command.rs:76-161, 196-200: returned (or panicked, status 101), interrupted from
    the keyboard, ended by another signal *)
Inductive ending := Exit (success : bool) | ByInterrupt | BySignal.

(** the statistics thread, when it is not like in Process.v: its report came after
    threads had died, or was refused; command.rs:146-156 *)
Inductive collected := Waiting | Told (text : str) | Refused.

(** command.rs:49-161 *)
Inductive state :=
| Loading (did todo : list event) (next : process)   (* the top-level expressions, 58-75, 121-123 *)
| Running (p : process) (dead : list N) (c : collected)   (* [dead]: threads that printed in vain *)
| Ended (e : ending) (stopped : bool) (l : list (who * event)) (d : amap bytes).

(** what has been printed and sent; command.rs:49-161 *)
Definition log_of (k : state) : list (who * event) :=
  match k with
  | Loading did _ _ => map (pair Main) did
  | Running p _ (Told text) => p_log p ++ [(Collector, Printed text)]
  | Running p _ _ => p_log p
  | Ended _ _ l _ => l
  end.
(** the files; command.rs:184-194 *)
Definition disk_of (k : state) : amap bytes :=
  match k with Loading _ _ next => p_disk next | Running p _ _ => p_disk p | Ended _ _ _ d => d end.
(** whether the timer or the interrupt handler has cleared the flag; command.rs:114-119 *)
Definition stopped_of (k : state) : bool :=
  match k with Loading _ _ _ => false | Running p _ _ => negb (p_flag p) | Ended _ s _ _ => s end.
(** [k] at its end; command.rs:161 *)
Definition ended_as (e : ending) (k : state) : state := Ended e (stopped_of k) (log_of k) (disk_of k).

(** the thread is done, or printed in vain; command.rs:158-160 *)
Definition stilled (dead : list N) (t : tester) : Prop := gone t = true \/ In (j_thread (te_job t)) dead.

(** the handler of 197 is set once the threads of a named test are started, unless the
    system refuses: the error is dropped; command.rs:114, 197 *)
Definition handled (g : setting) (p : process) : Prop := g_heeds g = true /\ p_main p = Joining /\ exists t, In t (p_testers p) /\ j_limit (te_job t) <> None.

(** What goes wrong: a [println!] or [print!] of that thread panics, a signal comes
    that nothing catches, or [std::thread::spawn] panics; command.rs:66, 72, 93, 99, 104,
    114, 116, 122, 130, 133, 138, 146, 154 *)
Inductive trouble := Mute (x : who) | Signal | Unstarted.

(** One step, with the trouble if there is any; command.rs:49-161 *)
Inductive state_step (g : setting) : option trouble -> state -> state -> Prop :=
| st_event did e todo next : state_step g None (Loading did (e :: todo) next) (Loading (did ++ [e]) todo next)
| st_unprinted did t todo next :   (* 66, 72, 122 and the built-in functions *)
    state_step g (Some (Mute Main)) (Loading did (Printed t :: todo) next) (ended_as (Exit false) (Loading did (Printed t :: todo) next))
| st_loaded did next : state_step g None (Loading did [] next) (Running next [] Waiting)
| st_turn p p' dead c :   (* the dead do not move *)
    process_step g p p' ->
    (forall t, In t (p_testers p) -> In (j_thread (te_job t)) dead -> In t (p_testers p')) ->
    c = Waiting \/ p_reported p' = p_reported p ->
    state_step g None (Running p dead c) (Running p' dead c)
| st_vain p dead c t x rest :   (* 99, 104, 133, 138 and the built-in functions *)
    running (p_main p) = true -> In t (p_testers p) -> te_todo t = Does (Printed x) :: rest -> ~ In (j_thread (te_job t)) dead ->
    state_step g (Some (Mute (Tester (j_thread (te_job t))))) (Running p dead c) (Running p (j_thread (te_job t) :: dead) c)
| st_report p dead :   (* 149-154 *)
    g_stat g = true -> p_main p = Joining -> p_reported p = false -> p_queue p = [] -> Forall (stilled dead) (p_testers p) ->
    state_step g None (Running p dead Waiting) (Running p dead (Told (show_stats (g_order g) (p_stats p))))
| st_refused p dead :   (* 154 *)
    g_stat g = true -> p_main p = Joining -> p_reported p = false -> p_queue p = [] ->
    Forall (fun t => j_limit (te_job t) = None \/ stilled dead t) (p_testers p) ->
    state_step g (Some (Mute Collector)) (Running p dead Waiting) (Running p dead Refused)
| st_exit p dead c :   (* 158-161 *)
    p_main p = Joining -> Forall (stilled dead) (p_testers p) -> (g_stat g = true -> p_reported p = true \/ c <> Waiting) ->
    state_step g None (Running p dead c) (ended_as (Exit true) (Running p dead c))
| st_gone p dead c b : p_main p = Gone b ->
    state_step g None (Running p dead c) (ended_as (Exit b) (Running p dead c))
| st_interrupt k :   (* 114, 196-200: nothing catches the signal yet, or at all *)
    (forall e s l d, k <> Ended e s l d) -> (forall p dead c, k = Running p dead c -> ~ handled g p /\ running (p_main p) = true) ->
    state_step g (Some Signal) k (ended_as ByInterrupt k)
| st_signal k : (forall e s l d, k <> Ended e s l d) -> (forall p dead c, k = Running p dead c -> running (p_main p) = true) ->
    state_step g (Some Signal) k (ended_as BySignal k)
| st_unstarted p dead c j js :   (* 93, 130: after the record file is created.  What the other threads do until the
                                    process has ended is taken to come before this step *)
    p_main p = Starting (j :: js) -> (forall path, te_path (new_tester g j) = Some path -> g_creates g path = true) ->
    state_step g (Some Unstarted) (Running p dead c)
      (Ended (Exit false) (stopped_of (Running p dead c)) (log_of (Running p dead c)) (disk_created g (te_path (new_tester g j)) (p_disk p)))
| st_unfinished p dead c :   (* 116, 146, likewise; the timer does not stop the threads between the two *)
    p_main p = Starting [] -> state_step g (Some Unstarted) (Running p dead c) (ended_as (Exit false) (Running p dead c)).

(** command.rs:58: the current directory is asked for even when a path is given, and
    [unwrap] panics when there is none *)
Definition command_start (iter : list (str * list expr) -> list (str * list expr)) (w : env) (here path : option (str * node))
    (name : option str) (threads : N) (duration : option N) (number : N) (record : bool) (pod : str) (d : amap bytes) : state :=
  match here with
  | None => Ended (Exit false) false [] d
  | Some h =>
      let p := launch iter w (match path with Some r => r | None => h end) name threads duration number record pod d in
      Loading [] (map snd (p_log p)) p
  end.
