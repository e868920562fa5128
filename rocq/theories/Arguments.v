(** cmd/src/main.rs:5-71: the command line.  How it is read is clap's doing (version 4,
    an external crate); described here are clap's rules for the interface that the
    attributes of main.rs:5-43 declare.  Arguments are text; what help, version and
    error messages say is left out. *)
From Verif Require Export Session Outage.
Open Scope N_scope.

(** options with a value; main.rs:25-39 *)
Inductive opt := OThreads | ODuration | ONumber | OPath | ORecord.
(** what a name after a hyphen or two stands for; main.rs:25-42 and clap's own help *)
Inductive flag := FOpt (o : opt) | FStat | FHelp.
(** [long] derives the name from the field; main.rs:26-42 *)
Definition long_flag (s : str) : option flag :=
  if str_eqb s (lit "threads") then Some (FOpt OThreads)
  else if str_eqb s (lit "duration") then Some (FOpt ODuration)
  else if str_eqb s (lit "number") then Some (FOpt ONumber)
  else if str_eqb s (lit "path") then Some (FOpt OPath)
  else if str_eqb s (lit "record") then Some (FOpt ORecord)
  else if str_eqb s (lit "stat") then Some FStat
  else if str_eqb s (lit "help") then Some FHelp
  else None.
(** [short]: the first letter; main.rs:26-42 *)
Definition short_flag (c : char) : option flag :=
  if c =? 116 then Some (FOpt OThreads)
  else if c =? 100 then Some (FOpt ODuration)
  else if c =? 110 then Some (FOpt ONumber)
  else if c =? 112 then Some (FOpt OPath)
  else if c =? 114 then Some (FOpt ORecord)
  else if c =? 115 then Some FStat
  else if c =? 104 then Some FHelp
  else None.

(** the fields of Commands::Test as far as given; main.rs:21-43 *)
Record options := Options {
  o_name : option str;
  o_threads : option N;
  o_duration : option N;   (* in seconds *)
  o_number : option N;
  o_path : option str;
  o_record : option str;
  o_stat : bool
}.
(** nothing given; main.rs:21-43 *)
Definition no_options : options := Options None None None None None None false.

(** What main does; main.rs:45-71 *)
Inductive invocation :=
| Repl
| EvalText (text : str)
| RunTests (name : option str) (threads : N) (duration : option N) (number : N) (path record : option str) (stat : bool).
(** main.rs:46: [parse] returns, or ends the process: with status 0 after help or the
    version, with status 2 after a message; or parse_duration panics (main.rs:82-83) *)
Inductive parsed := Runs (i : invocation) | Shows | Rejected | Aborts.

(** the defaults; main.rs:26, 32 *)
Definition finish (a : options) : invocation :=
  RunTests (o_name a) (match o_threads a with Some n => n | None => 1 end) (o_duration a)
           (match o_number a with Some n => n | None => 1 end) (o_path a) (o_record a) (o_stat a).

(** u32: clap reads an i64 and checks the range; main.rs:27, 33 *)
Definition parse_u32 (s : str) : option N :=
  match s with
  | 45 :: ((_ :: _) as ds) => match digits_val 0 ds with Some 0 => Some 0 | _ => None end
  | _ => parse_unsigned u32_max s
  end.
(** PathBuf: anything but an empty text; main.rs:36, 39 *)
Definition parse_path (s : str) : option str := match s with [] => None | _ => Some s end.

(** an option gets its value, once; main.rs:25-39 *)
Definition take (checks : bool) (o : opt) (v : str) (a : options) : options + parsed :=
  match o with
  | OThreads =>
      match o_threads a, parse_u32 v with
      | None, Some n => inl (Options (o_name a) (Some n) (o_duration a) (o_number a) (o_path a) (o_record a) (o_stat a))
      | _, _ => inr Rejected
      end
  | ODuration =>
      match o_duration a with
      | None =>
          match parse_duration checks v with
          | Ok d => inl (Options (o_name a) (o_threads a) (Some d) (o_number a) (o_path a) (o_record a) (o_stat a))
          | Panic => inr Aborts
          | _ => inr Rejected
          end
      | Some _ => inr Rejected
      end
  | ONumber =>
      match o_number a, parse_u32 v with
      | None, Some n => inl (Options (o_name a) (o_threads a) (o_duration a) (Some n) (o_path a) (o_record a) (o_stat a))
      | _, _ => inr Rejected
      end
  | OPath =>
      match o_path a, parse_path v with
      | None, Some p => inl (Options (o_name a) (o_threads a) (o_duration a) (o_number a) (Some p) (o_record a) (o_stat a))
      | _, _ => inr Rejected
      end
  | ORecord =>
      match o_record a, parse_path v with
      | None, Some p => inl (Options (o_name a) (o_threads a) (o_duration a) (o_number a) (o_path a) (Some p) (o_stat a))
      | _, _ => inr Rejected
      end
  end.
(** the name, once; main.rs:22-24 *)
Definition take_name (n : str) (a : options) : options + parsed :=
  match o_name a with
  | None => inl (Options (Some n) (o_threads a) (o_duration a) (o_number a) (o_path a) (o_record a) (o_stat a))
  | Some _ => inr Rejected
  end.
(** [stat], once; main.rs:40-42 *)
Definition take_stat (a : options) : options + parsed :=
  if o_stat a then inr Rejected
  else inl (Options (o_name a) (o_threads a) (o_duration a) (o_number a) (o_path a) (o_record a) true).

(** arguments that are neither values nor positional (a single hyphen is); main.rs:46 *)
Definition hyphened (s : str) : bool := match s with 45 :: _ :: _ => true | _ => false end.

(** the letters of [-abc]: the options after it, and possibly one that still needs its
    value, which is the next argument; main.rs:46 *)
Fixpoint cluster (checks : bool) (cs : str) (a : options) : (options * option opt) + parsed :=
  match cs with
  | [] => inl (a, None)
  | c :: cs' =>
      match short_flag c with
      | Some FStat => match take_stat a with inl a' => cluster checks cs' a' | inr r => inr r end
      | Some (FOpt o) =>
          match cs' with
          | [] => inl (a, Some o)
          | c1 :: v =>
              match take checks o (if c1 =? 61 then v else cs') a with inl a' => inl (a', None) | inr r => inr r end
          end
      | Some FHelp => inr Shows
      | None => inr Rejected
      end
  end.

(** [--name] or [--name=value]; main.rs:46 *)
Definition long_arg (checks : bool) (s : str) (a : options) : (options * option opt) + parsed :=
  let (n, v) := match split_once 61 s with Some (n, v) => (n, Some v) | None => (s, None) end in
  match long_flag n, v with
  | Some (FOpt o), Some v => match take checks o v a with inl a' => inl (a', None) | inr r => inr r end
  | Some (FOpt o), None => inl (a, Some o)
  | Some FStat, None => match take_stat a with inl a' => inl (a', None) | inr r => inr r end
  | Some FHelp, None => inr Shows
  | _, _ => inr Rejected
  end.

(** positional arguments alone, after [--]; main.rs:46 *)
Fixpoint trailing (args : list str) (a : options) : parsed :=
  match args with
  | [] => Runs (finish a)
  | x :: rest => match take_name x a with inl a' => trailing rest a' | inr r => r end
  end.

(** the arguments after [test]; main.rs:21-43, 46 *)
Fixpoint parse_test (checks : bool) (args : list str) (a : options) : parsed :=
  match args with
  | [] => Runs (finish a)
  | x :: rest =>
      if str_eqb x (lit "--") then trailing rest a
      else if hyphened x then
        match (match x with 45 :: 45 :: s => long_arg checks s a | _ :: cs => cluster checks cs a | [] => inr Rejected end) with
        | inl (a', None) => parse_test checks rest a'
        | inl (a', Some o) =>   (* its value comes next *)
            match rest with
            | [] => Rejected
            | v :: rest' =>
                if hyphened v then Rejected
                else match take checks o v a' with inl a2 => parse_test checks rest' a2 | inr r => r end
            end
        | inr r => r
        end
      else match take_name x a with inl a' => parse_test checks rest a' | inr r => r end
  end.

(** what an argument with a hyphen does where help is the only flag: [-h...] or
    [--help]; main.rs:15-19, 46 *)
Definition only_help (x : str) : parsed :=
  match x with
  | 45 :: 104 :: _ => Shows
  | _ => if str_eqb x (lit "--help") then Shows else Rejected
  end.
(** the arguments after [eval]; main.rs:15-19, 46 *)
Fixpoint parse_eval (args : list str) (past : bool) (text : option str) : parsed :=
  match args with
  | [] => match text with Some t => Runs (EvalText t) | None => Rejected end
  | x :: rest =>
      if negb past && str_eqb x (lit "--") then parse_eval rest true text
      else if negb past && hyphened x then only_help x
      else match text with None => parse_eval rest past (Some x) | Some _ => Rejected end
  end.
(** the arguments after [help]: the commands, and again after [help] itself; main.rs:46 *)
Definition parse_help (args : list str) : parsed :=
  let command x := str_eqb x (lit "eval") || str_eqb x (lit "test") in
  match args with
  | [] => Shows
  | [x] => if command x || str_eqb x (lit "help") then Shows else Rejected
  | [x; y] => if str_eqb x (lit "help") && command y then Shows else Rejected
  | _ => Rejected
  end.
(** the arguments after the name of the program; main.rs:5-13, 46 *)
Definition parse_main (checks : bool) (args : list str) : parsed :=
  match args with
  | [] => Runs Repl
  | x :: rest =>
      if str_eqb x (lit "eval") then parse_eval rest false None
      else if str_eqb x (lit "test") then parse_test checks rest no_options
      else if str_eqb x (lit "help") then parse_help rest
      else if str_eqb x (lit "--") then match rest with [] => Runs Repl | _ => Rejected end
      else match x with
           | 45 :: 86 :: _ => Shows
           | _ => if str_eqb x (lit "--version") then Shows else only_help x
           end
  end.
