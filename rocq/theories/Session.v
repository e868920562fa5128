(** cmd/src/command.rs:16-47 and main.rs:45-49, 68-70: the interactive session on the
    bytes of standard input as they arrive, and the [eval] command.  An end of the
    input is for good (a terminal may deliver more after it). *)
From Verif Require Export Command HttpRead.
Open Scope N_scope.

(** What std::io::Lines::next gives: the end, an error, a line, or it waits for ever; command.rs:20 *)
Inductive fetched := NoLine | BadLine | ALine (t : str) | NeverLine.

(** the line without its end: a line feed and a carriage return before it; std's
    Lines::next, used at command.rs:20 *)
Definition chomp (t : str) : str :=
  match rev t with
  | c :: r => if c =? 10 then rev (match r with d :: r' => if d =? 13 then r' else r | [] => [] end) else t
  | [] => t
  end.

(** std::io::Lines::next on the locked standard input, a BufReader of [cap] bytes; command.rs:17, 20 *)
Definition next_line (cap : nat) (b : bufreader) : fetched * bufreader :=
  match read_until Plain None cap (S (S (left_over b))) [] b with
  | RDone [] b' => (NoLine, b')
  | RDone bs b' => (match utf8_decode bs with Some t => ALine (chomp t) | None => BadLine end, b')
  | RFail _ => (BadLine, Br [] (Incoming [] (w_ending (br_wire b))))
  | RWaits | RFuel => (NeverLine, b)
  end.

(** How a session ends: [exit]; a crash; an evaluation that never ends; a loop that
    asks for lines for ever; waiting for input; command.rs:16-30 *)
Inductive session_end := Exited | Died | Endless | Spins | Waiting.

(** command.rs:19-29.  Once the input has ended [lines.next()] is None for ever, once it
    has failed an error for ever: both spin.  [fuel] bounds the number of lines. *)
Fixpoint interact (fuel : nat) (w : env) (cap : nat) (b : bufreader) (s : st) : session_end * st :=
  match fuel with
  | O => (Spins, s)
  | S f =>
      match next_line cap b with
      | (NeverLine, _) => (Waiting, s)
      | (NoLine, b') => (Spins, s)
      | (BadLine, b') => interact f w cap b' s
      | (ALine text, b') =>
          if str_eqb text (lit "exit") then (Exited, s)
          else match trim text with
               | [] => interact f w cap b' s
               | _ =>
                   match command_eval w text s with
                   | (Ok _, s') => interact f w cap b' s'
                   | (Panic, s') => (Died, s')
                   | (_, s') => (Endless, s')
                   end
               end
      end
  end.

(** command.rs:16-30, main.rs:68-70; the capacity is std's 8 KiB *)
Definition repl_main (w : env) (input : incoming) : session_end * st :=
  let b := Br [] input in interact (S (S (left_over b))) w (N.to_nat 8192) b (St ctx_new []).

(** main.rs:47-49, command.rs:32-47: evaluating one text; None: it never ends,
    otherwise whether the exit status is 0 *)
Definition eval_main (w : env) (text : str) : option bool * list event :=
  match command_eval w text (St ctx_new []) with
  | (Ok _, s) => (Some true, s_trace s)
  | (Panic, s) => (Some false, s_trace s)
  | (_, s) => (None, s_trace s)
  end.
