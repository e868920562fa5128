(** cmd/src/command.rs and cmd/src/main.rs *)
From Verif Require Export Evaluator Writer Stat.
Open Scope N_scope.

(** ** Command line: main.rs:73-88 *)

(** main.rs:76 *)
Definition u64_max : N := 2 ^ 64 - 1.

(** main.rs:78, 84-85 *)
Inductive duration_err := InvalidNumber (s : str) | UnknownUnit (c : char) | NoUnit.

(** the text of the error; main.rs:78, 84-85 *)
Definition duration_err_text (e : duration_err) : str :=
  match e with
  | InvalidNumber s => lit "Invalid number: " ++ s
  | UnknownUnit c => lit "Unknown time unit: " ++ [c] ++ lit ", supported units: s, m, h"
  | NoUnit => lit "Time unit needed, for example 1s or 2m"
  end.

(** u64 multiplication: overflow panics in checked builds, wraps otherwise; main.rs:82-83 *)
Definition mul64 (checks : bool) (a b : N) : out duration_err N :=
  if a * b <=? u64_max then Ok (a * b)
  else if checks then Panic else Ok ((a * b) mod 2 ^ 64).

(** main.rs:73-88, the result in seconds; next_back splits off the last char *)
Definition parse_duration (checks : bool) (s : str) : out duration_err N :=
  let (last, front) := match rev s with [] => (None, []) | c :: r => (Some c, rev r) end in
  match parse_unsigned u64_max front with
  | None => Err (InvalidNumber front)
  | Some v =>
      match last with
      | Some c =>
          if c =? 115 then Ok v
          else if c =? 109 then mul64 checks v 60
          else if c =? 104 then mul64 checks v 3600
          else Err (UnknownUnit c)
      | None => Err NoUnit
      end
  end.

(** main.rs:62 *)
Definition u32_max : N := 2 ^ 32 - 1.

(** main.rs:61-64: a given duration replaces the number; [None] as the duration
    stands for Duration::MAX *)
Definition run_limits (duration : option N) (number : N) : option N * N :=
  match duration with Some d => (Some d, u32_max) | None => (None, number) end.

(** ** Source files: command.rs:163-182 *)

(** A directory tree.  A file whose content is None cannot be opened or read, a
    sealed directory cannot be listed; other kinds of entries (sockets, dangling
    links, entries whose kind cannot be asked for) are NOther.  Names are taken to
    be Unicode text, symbolic links are resolved; command.rs:169-182 *)
Inductive node :=
| NFile (content : option bytes)
| NDir (entries : list (str * node))
| NSealed
| NOther.

(** std::path::Path::extension of a file name: what follows the last dot, if
    there is a dot that is not the first character; used at command.rs:178 *)
Definition extension (name : str) : option str :=
  let (tail, before) := span (fun c => negb (c =? 46)) (rev name) in
  match before with
  | _dot :: (_ :: _) => Some (rev tail)
  | _ => None
  end.

(** Vec<PathBuf>::sort within one directory: by name; command.rs:174 *)
Fixpoint insert_entry {A} (e : str * A) (l : list (str * A)) : list (str * A) :=
  match l with
  | [] => [e]
  | x :: l' => match str_cmp (fst x) (fst e) with Gt => e :: l | _ => x :: insert_entry e l' end
  end.
(** command.rs:174 *)
Definition sort_entries {A} (l : list (str * A)) : list (str * A) := fold_left (fun acc e => insert_entry e acc) l [].

(** command.rs:169-182: the text appended, or None on an I/O error: a
    source file that cannot be read or is not UTF-8, a directory that cannot be
    listed.  [read_node] also works on the sorted
    results, so that the recursion stays structural. *)
Definition concat_opt (l : list (option str)) : option str :=
  fold_left (fun acc x => match acc, x with Some a, Some b => Some (a ++ b) | _, _ => None end) l (Some []).
(** command.rs:169-182 *)
Fixpoint read_node (name : str) (n : node) : option str :=
  match n with
  | NFile content =>
      match extension name with
      | Some e => if str_eqb e (lit "fan") then match content with Some c => utf8_decode c | None => None end else Some []
      | None => Some []
      end
  | NDir entries =>
      concat_opt (map snd (sort_entries (map (fun e => (fst e, read_node (fst e) (snd e))) entries)))
  | NSealed => None
  | NOther => Some []
  end.

(** ** command.rs:32-47: evaluating a text, what it prints included *)
Definition println_ (t : str) (s : st) : st := emit (Printed (t ++ [10])) s.

(** command.rs:32-47 *)
Definition command_eval (w : env) (text : str) (s : st) : out everr unit * st :=
  match parse text with
  | Ok src =>
      let s0 := upd (fun c => ctx_extend c (s_requests src)) s in
      match eval_block w (s_exprs src) s0 with
      | (Ok v, s1) => (Ok tt, println_ (show_value (e_host w) v) s1)
      | (Err e, s1) => (Ok tt, println_ (everr_text (e_host w) e) s1)
      | (Panic, s1) => (Panic, s1)
      | (Diverge, s1) => (Diverge, s1)
      end
  | Err e => (Ok tt, println_ (perr_text e) s)
  | Panic => (Panic, s)
  | Diverge => (Diverge, s)
  end.

(** ** command.rs:16-30.  Standard input as the lines it will deliver ([None]: a
    line that cannot be read as text); once they are used up [lines.next()]
    returns None forever and the loop spins. *)
Fixpoint repl (w : env) (input : list (option str)) (s : st) : out everr unit * st :=
  match input with
  | [] => (Diverge, s)
  | None :: rest => repl w rest s
  | Some text :: rest =>
      if str_eqb text (lit "exit") then (Ok tt, s)
      else match trim text with
           | [] => repl w rest s
           | _ =>
               match command_eval w text s with
               | (Ok _, s') => repl w rest s'
               | r => r
               end
           end
  end.

(** ** command.rs:49-75: what precedes the threads *)
Definition test_setup (w : env) (text : str) : out everr (option (amap (list expr) * ctx)) * st :=
  let s := St ctx_new [] in
  match parse text with
  | Ok src =>
      match eval_block w (s_exprs src) (upd (fun c => ctx_extend c (s_requests src)) s) with
      | (Ok _, s1) => (Ok (Some (s_tests src, s_ctx s1)), s1)
      | (Err e, s1) => (Ok None, println_ (everr_text (e_host w) e) s1)
      | (Panic, s1) => (Panic, s1)
      | (Diverge, s1) => (Diverge, s1)
      end
  | Err e => (Ok None, println_ (perr_text e) s)
  | Panic => (Panic, s)
  | Diverge => (Diverge, s)
  end.

(** command.rs:184-194: the name of a thread's record file, {:06} pads with
    zeros; creating the file is in Process.v *)
Definition file_name (pod : str) (thread : N) : str :=
  let digits := show_N thread in
  pod ++ repeat 48 (6 - length digits) ++ digits.

(** ** The threads of a test run.

    Threads share the stop flag, the channel to the statistics thread and
    standard output; everything else is their own.  Each thread keeps what it
    printed and sent in its own trace: how the lines of different threads
    interleave on standard output is in Process.v; command.rs:94-111 *)
Inductive phase :=
| AtHead                 (* about to test the loop condition, command.rs:95 *)
| InBody                 (* the condition held; the test body runs *)
| Finished               (* left the loop *)
| Crashed                (* the thread panicked *)
| Hung.                  (* the body never returns *)

(** command.rs:86-111 *)
Record thread := Thread {
  th_id : N;                (* thread *)
  th_env : env;             (* the world this thread sees *)
  th_phase : phase;
  th_number : N;            (* completed iterations, the local [number] *)
  th_state : st;            (* its context and trace *)
  th_file : option file;    (* its record file *)
  th_writes : list (N * list record)  (* ghost: (number, records) of each Writer::write call *)
}.

(** command.rs:95-111, one move of a thread: (the thread afterwards, records
    sent to the statistics thread) *)
Definition thread_move (name : str) (body : list expr) (maximun : N) (stat : bool) (flag : bool) (t : thread)
  : thread * option (list record) :=
  let w := th_env t in
  match th_phase t with
  | AtHead =>   (* 95 *)
      let go := flag && (th_number t <? maximun) in
      (Thread (th_id t) w (if go then InBody else Finished) (th_number t) (th_state t) (th_file t) (th_writes t), None)
  | InBody =>
      match eval_block w body (th_state t) with
      | (Ok _, s1) =>   (* 103-109 *)
          let (records, c) := ctx_records (s_ctx s1) in
          let s2 := fold_left (fun s r => println_ (show_record r) s) records (St c (s_trace s1)) in
          let f := option_map (fun f => writer_write f records name (th_id t) (th_number t)) (th_file t) in
          (Thread (th_id t) w AtHead (th_number t + 1) s2 f
                  (match th_file t with Some _ => th_writes t ++ [(th_number t, records)] | None => th_writes t end),
           if stat then Some records else None)
      | (Err e, s1) =>   (* 98-101 *)
          (Thread (th_id t) w Finished (th_number t) (println_ (everr_text (e_host w) e) s1) (th_file t) (th_writes t), None)
      | (Panic, s1) => (Thread (th_id t) w Crashed (th_number t) s1 (th_file t) (th_writes t), None)
      | (Diverge, s1) => (Thread (th_id t) w Hung (th_number t) s1 (th_file t) (th_writes t), None)
      end
  | _ => (t, None)
  end.

(** command.rs:95 *)
Definition live (p : phase) : bool := match p with AtHead | InBody => true | _ => false end.

(** The statistics thread, command.rs:146-156 *)
Inductive stat_phase := Receiving | Printed_ (text : str).

(** command.rs:76-161 *)
Record run := Run {
  run_threads : list thread;
  run_flag : bool;                       (* continuous *)
  run_queue : list (list record);        (* sent, not yet received *)
  run_stats : stats;
  run_stat_phase : stat_phase
}.

(** command.rs:149-153 *)
Definition stats_add_records (m : stats) (rs : list record) : stats :=
  fold_left (fun m r => stats_add m (r_name r) (t_total (r_time r) / 1000000)) rs m.

(** One step of a named run.  The sender of a thread is dropped when the thread
    ends, crashed or not, so the receiving loop ends once no thread can send; command.rs:93-161 *)
Inductive run_step (order : list str -> list str) (name : str) (body : list expr) (maximun : N) (stat : bool) : run -> run -> Prop :=
| step_thread ts1 t ts2 flag q m p t' sent :
    live (th_phase t) = true ->
    thread_move name body maximun stat flag t = (t', sent) ->
    run_step order name body maximun stat
      (Run (ts1 ++ t :: ts2) flag q m p)
      (Run (ts1 ++ t' :: ts2) flag (match sent with Some rs => q ++ [rs] | None => q end) m p)
| step_stop ts flag q m p :   (* the interrupt handler or the timer, 114-119 *)
    run_step order name body maximun stat (Run ts flag q m p) (Run ts false q m p)
| step_receive ts flag rs q m :   (* 149-153 *)
    stat = true ->
    run_step order name body maximun stat (Run ts flag (rs :: q) m Receiving)
             (Run ts flag q (stats_add_records m rs) Receiving)
| step_print ts flag m :   (* 149, 154: the channel is closed and empty *)
    stat = true ->
    (forall t, In t ts -> live (th_phase t) = false /\ th_phase t <> Hung) ->
    run_step order name body maximun stat (Run ts flag [] m Receiving)
             (Run ts flag [] m (Printed_ (show_stats order m))).

(** command.rs:80-112: the threads of a named run; each starts from a clone of
    the context.  [worlds] gives every thread its view of the world and [files]
    its freshly created record file. *)
Definition start_thread (c : ctx) (w : env) (f : option file) (id : N) : thread :=
  Thread id w AtHead 0 (St (ctx_clone c) []) f [].
(** command.rs:86-112 *)
Fixpoint start_threads (c : ctx) (worlds : N -> env) (files : N -> option file) (id : N) (n : nat) : list thread :=
  match n with
  | O => []
  | S n' => start_thread c (worlds id) (files id) id :: start_threads c worlds files (id + 1) n'
  end.

(** command.rs:85: [number / threads] panics when threads is 0 *)
Definition maximun_of (number threads : N) : out everr N :=
  if threads =? 0 then Panic else Ok (number / threads).

(** command.rs:76-112 *)
Definition run_start (c : ctx) (worlds : N -> env) (files : N -> option file) (threads : N) : run :=
  Run (start_threads c worlds files 0 (N.to_nat threads)) true [] [] Receiving.

(** command.rs:126-144: without a name every test runs once on a thread of its
    own; the final trace and file of that thread, None when it crashes or hangs
    before getting to its records *)
Definition run_once (w : env) (c : ctx) (f : option file) (name : str) (id : N) (body : list expr) : option (list record * st * option file) :=
  let finish s1 :=
    let (records, c') := ctx_records (s_ctx s1) in
    let s2 := fold_left (fun s r => println_ (show_record r) s) records (St c' (s_trace s1)) in
    Some (records, s2, option_map (fun f => writer_write f records name id 0) f) in
  match eval_block w body (St (ctx_clone c) []) with
  | (Ok _, s1) => finish s1
  | (Err e, s1) => finish (println_ (everr_text (e_host w) e) s1)
  | (Panic, _) => None
  | (Diverge, _) => None
  end.
(** 127: the threads in the iteration order of the map of tests; command.rs:127-143 *)
Fixpoint run_all_from (worlds : N -> env) (files : N -> option file) (c : ctx) (id : N) (tests : list (str * list expr))
  : list (str * option (list record * st * option file)) :=
  match tests with
  | [] => []
  | (name, body) :: ts => (name, run_once (worlds id) c (files id) name id body) :: run_all_from worlds files c (id + 1) ts
  end.
