(** cmd/src/command.rs:49-161 and main.rs:52-66: what the [test] command starts *)
From Verif Require Export Command.
Open Scope N_scope.

(** A thread of the run; command.rs:86-112, 127-143 *)
Record job := Job {
  j_thread : N;              (* its index, command.rs:86 and 127 *)
  j_file : option str;       (* the name of the record file created for it, 91 and 128 *)
  j_name : str;              (* the test it runs *)
  j_body : list expr;
  j_limit : option N;        (* the loop bound of 95; None: the body runs once, 130-142 *)
  j_ctx : ctx                (* the context it starts with, 92 and 129 *)
}.

(** command.rs:184-194: the record file of a thread; [pod] is Some with the value
    of the variable POD (empty when unset) when a record directory is given *)
Definition record_name (pod : option str) (thread : N) : option str :=
  option_map (fun p => file_name p thread) pod.

(** command.rs:84-112 *)
Fixpoint named_jobs (pod : option str) (c : ctx) (name : str) (body : list expr) (maximun : N) (id : N) (n : nat) : list job :=
  match n with
  | O => []
  | S n' => Job id (record_name pod id) name body (Some maximun) (ctx_clone c) :: named_jobs pod c name body maximun (id + 1) n'
  end.
(** command.rs:126-144; the index is cast to u32 *)
Fixpoint all_jobs (pod : option str) (c : ctx) (id : N) (tests : list (str * list expr)) : list job :=
  match tests with
  | [] => []
  | (name, body) :: ts =>
      Job (id mod 2 ^ 32) (record_name pod (id mod 2 ^ 32)) name body None (ctx_clone c) :: all_jobs pod c (id + 1) ts
  end.

(** command.rs:49-144.  None: the command returned early (65-74), no thread and no
    statistics.  Some: the threads of the tests; the statistics thread of 146-156
    is started as well.  [iter] is the iteration order of the map of tests. *)
Definition test_command (iter : list (str * list expr) -> list (str * list expr)) (w : env) (text : str)
    (name : option str) (threads number : N) (pod : option str) : out everr (option (list job)) * st :=
  match test_setup w text with
  | (Ok (Some (tests, c)), s) =>
      match name with
      | Some name =>
          match mget name tests with
          | Some body =>   (* 78-112 *)
              match maximun_of number threads with
              | Ok m => (Ok (Some (named_jobs pod c name body m 0 (N.to_nat threads))), s)
              | Err e => (Err e, s)
              | Panic => (Panic, s)
              | Diverge => (Diverge, s)
              end
          | None => (Ok (Some []), println_ (lit "Test not found: " ++ name) s)   (* 121-123 *)
          end
      | None => (Ok (Some (all_jobs pod c 0 (iter tests))), s)   (* 126-144 *)
      end
  | (Ok None, s) => (Ok None, s)
  | (Err e, s) => (Err e, s)
  | (Panic, s) => (Panic, s)
  | (Diverge, s) => (Diverge, s)
  end.

(** main.rs:61-65 *)
Definition main_test (iter : list (str * list expr) -> list (str * list expr)) (w : env) (text : str)
    (name : option str) (threads : N) (duration : option N) (number : N) (pod : option str) :=
  test_command iter w text name threads (snd (run_limits duration number)) pod.
