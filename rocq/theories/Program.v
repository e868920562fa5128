(** cmd/src/main.rs:45-71: the whole program, from its arguments to its exit status; also
    refused output and signals in the commands other than [test]. *)
From Verif Require Export Arguments.
Open Scope N_scope.

(** What the program finds when it starts; main.rs:45, command.rs:17, 58, 127, 184-200 *)
Record outside := Outside {
  os_world : env;                            (* what the main thread sees of the network and the clock *)
  os_input : incoming;                       (* standard input, command.rs:17 *)
  os_here : option (str * node);             (* the current directory, 58 *)
  os_look : str -> str * node;               (* the file name of a path and what is there, 169-182 *)
  os_iter : list (str * list expr) -> list (str * list expr);   (* 127 *)
  os_pod : str;                              (* the variable POD, 186 *)
  os_disk : amap bytes;
  os_creates : str -> bool;
  os_accepts : str -> list (option nat);
  os_worlds : N -> env;                      (* what a thread sees *)
  os_order : list str -> list str;
  os_heeds : bool
}.

(** main.rs:58-65 *)
Definition setting_for (o : outside) (record : option str) (stat : bool) : setting :=
  Setting stat (match record with Some r => r | None => [] end) (os_creates o) (os_accepts o) (os_worlds o) (os_order o) (os_heeds o).

(** The exit status, or a signal; main.rs:45-71 *)
Inductive status := Code (n : N) | Signalled.
(** main.rs:45-71: a session or an evaluation (done, still to do, and the status after
    it, if it ends), the tests, or the end of the former.  What a session reads and
    waits for between its actions is left to Session.v. *)
Inductive course :=
| Talks (did todo : list event) (after : option N)
| Tests (g : setting) (k : state)
| Left (s : status) (did : list event).

(** main.rs:45-71; clap ends with 0 or 2, a panic with 101 *)
Definition whole_program (checks : bool) (o : outside) (args : list str) : course :=
  match parse_main checks args with
  | Runs Repl =>
      let (e, s) := repl_main (os_world o) (os_input o) in
      Talks [] (s_trace s) (match e with Exited => Some 0 | Died => Some 101 | _ => None end)
  | Runs (EvalText text) =>
      let (ok, l) := eval_main (os_world o) text in
      Talks [] l (match ok with Some true => Some 0 | Some false => Some 101 | None => None end)
  | Runs (RunTests name threads duration number path record stat) =>
      Tests (setting_for o record stat)
        (command_start (os_iter o) (os_world o) (os_here o) (option_map (os_look o) path) name threads duration number
                       (match record with Some _ => true | None => false end) (os_pod o) (os_disk o))
  | Shows => Left (Code 0) []
  | Rejected => Left (Code 2) []
  | Aborts => Left (Code 101) []
  end.

(** One step: a refused print is a panic, nothing catches signals outside the tests;
    command.rs:16-47 *)
Inductive course_step : option trouble -> course -> course -> Prop :=
| cs_event did e todo n : course_step None (Talks did (e :: todo) n) (Talks (did ++ [e]) todo n)
| cs_refused did t todo n : course_step (Some (Mute Main)) (Talks did (Printed t :: todo) n) (Left (Code 101) did)
| cs_end did n : course_step None (Talks did [] (Some n)) (Left (Code n) did)
| cs_signal did todo n : course_step (Some Signal) (Talks did todo n) (Left Signalled did)
| cs_tests g x k k' : state_step g x k k' -> course_step x (Tests g k) (Tests g k').
