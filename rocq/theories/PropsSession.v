(** C91, C99 *)
From Verif Require Import SpecSession SessionProofs SessionMore EvalExamples SessionExamples.
Open Scope N_scope.

(** C91.  What an interactive session does with the bytes it gets, and the eval command *)

Theorem C91_session : forall w input ts, inputs (arrived (w_arrivals input)) (w_ending input) ts ->
  exists pre rest s0, ts = pre ++ rest /\ session w pre (St ctx_new []) s0 /\
  ((rest = [] /\ repl_main w input = (used_up (w_ending input), s0)) \/
   (exists more, rest = Some (lit "exit") :: more /\ repl_main w input = (Exited, s0)) \/
   (exists l more s1, rest = Some l :: more /\ ~ blank l /\ l <> lit "exit" /\
     ((line_done w l s0 (LPanic s1) /\ repl_main w input = (Died, s1)) \/ (line_done w l s0 (LHang s1) /\ repl_main w input = (Endless, s1))))).
Proof. exact session_result. Qed.
Print Assumptions C91_session.
Theorem C91_lines : forall bs e, exists ts, inputs bs e ts.
Proof. exact inputs_total. Qed.
Print Assumptions C91_lines.
Theorem C91_lines_unique : forall bs e ts ts', inputs bs e ts -> inputs bs e ts' -> ts = ts'.
Proof. exact inputs_unique. Qed.
Print Assumptions C91_lines_unique.
Theorem C91_pieces : forall w i i', arrived (w_arrivals i) = arrived (w_arrivals i') -> w_ending i = w_ending i' -> repl_main w i = repl_main w i'.
Proof. exact session_pieces. Qed.
Print Assumptions C91_pieces.
Theorem C91_eval : forall w text, exists o, line_done w text (St ctx_new []) o /\ eval_main w text =
  match o with LPrinted s => (Some true, s_trace s) | LPanic s => (Some false, s_trace s) | LHang s => (None, s_trace s) end.
Proof. exact eval_result. Qed.
Print Assumptions C91_eval.
Example C91_lines_example : inputs (arrived (w_arrivals (typed Closed))) Closed [Some (lit "let x = 1"); None; Some (lit " "); Some (lit "x + 1"); Some (lit "exit")].
Proof. exact typed_inputs. Qed.

Example C91_example : shows (repl_main online (typed Closed)) = (Exited, [Printed (lit "1" ++ [10]); Printed (lit "2" ++ [10])]).
Proof. exact typed_session. Qed.

Example C91_waits_example : shows (repl_main online (typed Silent)) = (Waiting, [Printed (lit "1" ++ [10]); Printed (lit "2" ++ [10])]).
Proof. exact typed_waits. Qed.

Example C91_fails_example : shows (repl_main online (typed (Broke OtherKind (lit "Input/output error")))) = (Spins, [Printed (lit "1" ++ [10]); Printed (lit "2" ++ [10])]).
Proof. exact typed_fails. Qed.

Example C91_exit_example : shows (repl_main online (Incoming [Piece 101 (tl (lit "exit "))] Closed)) = (Spins, [Printed (lit "ident:exit not found" ++ [10])]).
Proof. exact exit_space. Qed.

Example C91_eval_example : eval_main online (lit "1 + 2 * 3") = (Some true, [Printed (lit "7" ++ [10])]) /\ eval_main online (lit "let") = (Some true, [Printed (lit "token expect Ident but found Eof" ++ [10])]) /\
  fst (eval_main online (lit "1 / 0")) = Some false.
Proof. exact eval_example. Qed.

(** C99.  A session answers every line as soon as it is complete, whatever comes later *)

Theorem C99_early : forall w i i' more, w_ending i = Silent -> arrived (w_arrivals i') = arrived (w_arrivals i) ++ more ->
  (fst (repl_main w i) = Waiting /\ exists tr, s_trace (snd (repl_main w i')) = s_trace (snd (repl_main w i)) ++ tr) \/
  (fst (repl_main w i) <> Waiting /\ repl_main w i' = repl_main w i).
Proof. exact session_early. Qed.
Print Assumptions C99_early.
Example C99_early_example : fst (repl_main online (typed Silent)) = Waiting /\ arrived (w_arrivals typed_on) = arrived (w_arrivals (typed Silent)) ++ 10 :: lit "3" /\
  fst (repl_main online typed_on) = Exited.
Proof. exact typed_on_early. Qed.

Theorem C99_prompt : forall w i ts, w_ending i = Silent -> inputs (arrived (w_arrivals i)) Silent ts -> fst (repl_main w i) = Waiting ->
  session w ts (St ctx_new []) (snd (repl_main w i)) /\ answered ts (s_trace (snd (repl_main w i))) /\ ~ In (Some (lit "exit")) ts.
Proof. exact session_prompt. Qed.
Print Assumptions C99_prompt.
Example C99_prompt_example : exists ts, inputs (arrived (w_arrivals (typed Silent))) Silent ts /\ length ts = 4%nat.
Proof. exact typed_waiting. Qed.

Theorem C99_leaves : forall w i ts, inputs (arrived (w_arrivals i)) (w_ending i) ts -> In (Some (lit "exit")) ts ->
  fst (repl_main w i) = Exited \/ fst (repl_main w i) = Died \/ fst (repl_main w i) = Endless.
Proof. exact session_leaves. Qed.
Print Assumptions C99_leaves.
