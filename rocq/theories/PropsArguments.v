(** C97 *)
From Verif Require Import SpecArguments ArgumentProofs ArgumentExamples.
From Coq Require Import Permutation.
Open Scope N_scope.

(** C97.  The command line: what runs, in any order, read in one way; and what else can happen *)

Theorem C97_test : forall checks args i, parse_main checks (lit "test" :: args) = Runs i <->
  exists gs, written gs args /\ once_each gs /\ asks checks gs i.
Proof. exact arguments_test. Qed.
Print Assumptions C97_test.
Example C97_test_example : parse_main true [lit "test"; lit "-st4"; lit "login"; lit "--duration=90m"; lit "-p"; lit "a b"] =
  Runs (RunTests (Some (lit "login")) 4 (Some 5400) 1 (Some (lit "a b")) None true).
Proof. exact line_read. Qed.

Example C97_written_example : written line_gs [lit "-st4"; lit "login"; lit "--duration=90m"; lit "-p"; lit "a b"] /\ once_each line_gs.
Proof. exact line_written. Qed.

Example C97_rejected_example : parse_main true [lit "test"; lit "-t"; lit "1"; lit "--threads"; lit "2"] = Rejected /\
  parse_main true [lit "test"; lit "-t"; lit "-1"] = Rejected /\ parse_main true [lit "test"; lit "-t4294967296"] = Rejected /\
  parse_main true [lit "test"; lit "a"; lit "b"] = Rejected /\ parse_main true [lit "test"; lit "--path="] = Rejected /\
  parse_main true [lit "test"; lit "-d"; lit "5"] = Rejected /\ parse_main true [lit "-s"] = Rejected.
Proof. exact lines_refused. Qed.

Theorem C97_order : forall checks gs hs args brgs i, written gs args -> written hs brgs -> Permutation gs hs ->
  parse_main checks (lit "test" :: args) = Runs i -> parse_main checks (lit "test" :: brgs) = Runs i.
Proof. exact arguments_order. Qed.
Print Assumptions C97_order.
Example C97_order_example : written line_other [lit "--path"; lit "a b"; lit "-d=90m"; lit "-t"; lit "4"; lit "--stat"; lit "--"; lit "login"] /\ Permutation line_gs line_other.
Proof. exact line_order. Qed.

Theorem C97_one_way : forall gs hs args, written gs args -> written hs args -> gs = hs.
Proof. exact arguments_one_way. Qed.
Print Assumptions C97_one_way.
Theorem C97_eval : forall checks args t, parse_main checks args = Runs (EvalText t) <->
  ordinary t /\ (args = [lit "eval"; t] \/ args = [lit "eval"; t; lit "--"]) \/ args = [lit "eval"; lit "--"; t].
Proof. exact arguments_eval. Qed.
Print Assumptions C97_eval.
Example C97_eval_example : parse_main true [lit "eval"; lit "1 - 5"] = Runs (EvalText (lit "1 - 5")) /\
  parse_main true [lit "eval"; lit "-5"] = Rejected /\ parse_main true [lit "eval"; lit "--"; lit "-5"] = Runs (EvalText (lit "-5")) /\
  parse_main true [lit "eval"; lit "-"] = Runs (EvalText (lit "-")).
Proof. exact eval_lines. Qed.

Theorem C97_repl : forall checks args, parse_main checks args = Runs Repl <-> args = [] \/ args = [lit "--"].
Proof. exact arguments_repl. Qed.
Print Assumptions C97_repl.
Theorem C97_runs : forall checks args i, parse_main checks args = Runs i ->
  args = [] \/ args = [lit "--"] \/ (exists t, i = EvalText t) \/ exists rest, args = lit "test" :: rest.
Proof. exact arguments_runs. Qed.
Print Assumptions C97_runs.
Theorem C97_shows : forall checks args, parse_main checks args = Shows -> exists x, In x args /\ curious x.
Proof. exact arguments_shows. Qed.
Print Assumptions C97_shows.
Example C97_shows_example : parse_main true [lit "test"; lit "-sh"] = Shows /\ parse_main true [lit "--version"] = Shows /\
  parse_main true [lit "test"; lit "--"; lit "--help"] = Runs (RunTests (Some (lit "--help")) 1 None 1 None None false).
Proof. exact help_lines. Qed.

Theorem C97_help_test : forall checks gss xs i h rest, Forall2 spelled gss xs -> once_each (List.concat gss) -> asks checks (List.concat gss) i ->
  h = lit "--help" \/ (exists r, h = lit "-h" ++ r) -> parse_main checks (lit "test" :: List.concat xs ++ h :: rest) = Shows.
Proof. exact arguments_help_test. Qed.
Print Assumptions C97_help_test.
Theorem C97_help : forall checks h rest, h = lit "--help" \/ (exists r, h = lit "-h" ++ r) ->
  parse_main checks (h :: rest) = Shows /\ parse_main checks (lit "eval" :: h :: rest) = Shows /\
  forall t, ordinary t -> parse_main checks (lit "eval" :: t :: h :: rest) = Shows.
Proof. exact arguments_help. Qed.
Print Assumptions C97_help.
Theorem C97_version : forall checks v rest, v = lit "--version" \/ (exists r, v = lit "-V" ++ r) -> parse_main checks (v :: rest) = Shows.
Proof. exact arguments_version. Qed.
Print Assumptions C97_version.
Theorem C97_help_command : forall checks args, parse_main checks (lit "help" :: args) = Shows <->
  args = [] \/ args = [lit "help"] \/ exists x, (x = lit "eval" \/ x = lit "test") /\ (args = [x] \/ args = [lit "help"; x]).
Proof. exact arguments_help_command. Qed.
Print Assumptions C97_help_command.
Theorem C97_aborts : forall checks args, parse_main checks args = Aborts ->
  checks = true /\ exists x pre v, In x args /\ x = pre ++ v /\ endless v.
Proof. exact arguments_aborts. Qed.
Print Assumptions C97_aborts.
Theorem C97_overflow : forall gs hs args i v, written (gs ++ Sets ODuration v :: hs) args -> once_each gs -> asks true gs i ->
  (forall u, ~ In (Sets ODuration u) gs) -> endless v -> parse_main true (lit "test" :: args) = Aborts.
Proof. exact arguments_overflow. Qed.
Print Assumptions C97_overflow.
Example C97_overflow_example : let v := lit "18446744073709551615h" in
  written ([Name (lit "t")] ++ [Sets ODuration v]) [lit "t"; lit "--duration=18446744073709551615h"] /\
  asks true [Name (lit "t")] (RunTests (Some (lit "t")) 1 None 1 None None false) /\ endless v.
Proof. exact overflow_hypotheses. Qed.

Example C97_aborts_example : parse_main true [lit "test"; lit "-d18446744073709551615h"] = Aborts /\
  parse_main false [lit "test"; lit "-d18446744073709551615h"] = Runs (RunTests None 1 (Some 18446744073709548016) 1 None None false).
Proof. exact overflow_lines. Qed.

