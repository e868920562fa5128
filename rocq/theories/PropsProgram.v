(** C98 *)
From Verif Require Import SpecProgram SpecNumber SpecFloat64 ProgramProofs ProgramExamples OutageExamples ProcessExamples.
From Coq Require Import Permutation QArith.
Open Scope N_scope.

(** C98.  From the command line to output, files and exit status *)

Theorem C98_unrun : forall checks o args fs c, (forall i, parse_main checks args <> Runs i) -> proceeds fs (whole_program checks o args) c ->
  fs = [] /\ log c = [] /\ files o c = os_disk o /\
  ended_with c = Some (Code (match parse_main checks args with Rejected => 2 | Aborts => 101 | _ => 0 end)).
Proof. exact program_unrun. Qed.
Print Assumptions C98_unrun.
Theorem C98_usage : forall checks o args fs c, proceeds fs (whole_program checks o args) c -> ended_with c = Some (Code 2) -> parse_main checks args = Rejected.
Proof. exact program_usage. Qed.
Print Assumptions C98_usage.
Example C98_unrun_example : whole_program true there [lit "tset"] = Left (Code 2) [] /\ whole_program true there [lit "--version"] = Left (Code 0) [] /\
  whole_program true there [lit "test"; lit "-d18446744073709551615h"] = Left (Code 101) [].
Proof. exact rejected_program. Qed.

Theorem C98_eval : forall checks o args text fs c, ordinary text /\ (args = [lit "eval"; text] \/ args = [lit "eval"; text; lit "--"]) \/ args = [lit "eval"; lit "--"; text] ->
  proceeds fs (whole_program checks o args) c ->
  files o c = os_disk o /\ exists r, line_done (os_world o) text (St ctx_new []) r /\
  match r with LPrinted s => carried (s_trace s) (Some 0) fs c | LPanic s => carried (s_trace s) (Some 101) fs c | LHang s => carried (s_trace s) None fs c end.
Proof. exact program_eval. Qed.
Print Assumptions C98_eval.
Theorem C98_eval_ends : forall checks o args text fs c, ordinary text /\ (args = [lit "eval"; text] \/ args = [lit "eval"; text; lit "--"]) \/ args = [lit "eval"; lit "--"; text] ->
  (forall s, ~ line_done (os_world o) text (St ctx_new []) (LHang s)) ->
  proceeds fs (whole_program checks o args) c -> ended_with c = None -> exists c' s, proceeds [] c c' /\ ended_with c' = Some s.
Proof. exact program_eval_ends. Qed.
Print Assumptions C98_eval_ends.
Example C98_eval_example : proceeds [] (whole_program true there [lit "eval"; lit "1 + 2"]) (Left (Code 0) [Printed (lit "3" ++ [10])]).
Proof. exact eval_program. Qed.

Example C98_refused_example : proceeds [Mute Main] (whole_program true there [lit "eval"; lit "1 + 2"]) (Left (Code 101) []).
Proof. exact eval_refused. Qed.

Theorem C98_typed : forall checks o l x, decimal_text l x -> tidy l -> In 46 l -> digits 15 x -> (scaled 1 (-1022) <= x < too_large)%Q ->
  forall c s, proceeds [] (whole_program checks o [lit "eval"; lit "--"; l]) c -> ended_with c = Some s -> s = Code 0 /\ log c = [Printed (l ++ [10])].
Proof. exact program_typed. Qed.
Print Assumptions C98_typed.
Theorem C98_session : forall checks o args ts fs c, args = [] \/ args = [lit "--"] ->
  inputs (arrived (w_arrivals (os_input o))) (w_ending (os_input o)) ts -> proceeds fs (whole_program checks o args) c ->
  files o c = os_disk o /\ exists pre rest s0, ts = pre ++ rest /\ session (os_world o) pre (St ctx_new []) s0 /\
  ((rest = [] /\ carried (s_trace s0) None fs c) \/
   (exists more, rest = Some (lit "exit") :: more /\ carried (s_trace s0) (Some 0) fs c) \/
   (exists l more s1, rest = Some l :: more /\ ~ blank l /\ l <> lit "exit" /\
     ((line_done (os_world o) l s0 (LPanic s1) /\ carried (s_trace s1) (Some 101) fs c) \/ (line_done (os_world o) l s0 (LHang s1) /\ carried (s_trace s1) None fs c)))).
Proof. exact program_session. Qed.
Print Assumptions C98_session.
Example C98_session_example : proceeds [] (whole_program true there []) (Left (Code 0) [Printed (lit "1" ++ [10]); Printed (lit "2" ++ [10])]).
Proof. exact session_program. Qed.

Theorem C98_tests : forall checks o args gs name threads duration number path record stat h src s1 body fs c, written gs args -> once_each gs -> asks checks gs (RunTests (Some name) threads duration number path record stat) -> os_here o = Some h ->
  loads (os_world o) (root_of (option_map (os_look o) path) h) src s1 -> mget name (s_tests src) = Some body -> threads <> 0 ->
  proceeds fs (whole_program checks o (lit "test" :: args)) c -> ended_with c = Some (Code 0) ->
  exists bss l stopped, length bss = N.to_nat threads /\ log c = map snd l /\
  (forall id bs, nth_error bss (N.to_nat id) = Some bs -> let own := events_of (Tester id) l in
    (~ In (Mute (Tester id)) fs -> done_with (os_worlds o id) body (s_ctx s1) (share duration number threads) stopped bs own) /\
    (In (Mute (Tester id)) fs -> cut_short (os_worlds o id) body (s_ctx s1) (share duration number threads) bs own) /\
    (forall dir, record = Some dir -> let g := into o dir stat in
      mget (record_path g (os_pod o) id) (files o c) = Some (recorded g (record_path g (os_pod o) id) name id bs))) /\
  (stat = false \/ In (Mute Collector) fs -> events_of Collector l = []) /\
  (stat = true -> ~ In (Mute Collector) fs -> (forall ks, Permutation (os_order o ks) ks) ->
    exists l1 text, l = l1 ++ [(Collector, Printed text)] /\ events_of Collector l1 = [] /\ stat_report (flat_map samples (List.concat bss)) text).
Proof. exact program_tests. Qed.
Print Assumptions C98_tests.
Theorem C98_tests_ends : forall checks o args gs name threads duration number path record stat h src s1 body fs c, written gs args -> once_each gs -> asks checks gs (RunTests (Some name) threads duration number path record stat) -> os_here o = Some h ->
  loads (os_world o) (root_of (option_map (os_look o) path) h) src s1 -> mget name (s_tests src) = Some body -> threads <> 0 ->
  (forall id n s bs, id < threads -> n < share duration number threads -> iterated (os_worlds o id) body (s_ctx s1) n s bs -> fst (eval_block (os_worlds o id) body s) <> Diverge) ->
  proceeds fs (whole_program checks o (lit "test" :: args)) c -> ended_with c = None ->
  exists (b : bool) c', proceeds [] c c' /\ ended_with c' = Some (Code (if b then 0 else 101)).
Proof. exact program_tests_ends. Qed.
Print Assumptions C98_tests_ends.
Theorem C98_tests_status : forall checks o args gs name threads duration number path record stat h src s1 body fs c, written gs args -> once_each gs -> asks checks gs (RunTests (Some name) threads duration number path record stat) -> os_here o = Some h ->
  loads (os_world o) (root_of (option_map (os_look o) path) h) src s1 -> mget name (s_tests src) = Some body -> threads <> 0 ->
  (forall dir, record = Some dir -> forall id, id < threads -> os_creates o (record_path (into o dir stat) (os_pod o) id) = true) ->
  proceeds fs (whole_program checks o (lit "test" :: args)) c -> ended_with c = Some (Code 101) -> fs = [Mute Main] \/ exists fs', fs = fs' ++ [Unstarted].
Proof. exact program_tests_status. Qed.
Print Assumptions C98_tests_status.
Example C98_asks_example : exists gs, written gs demo_args /\ once_each gs /\ asks true gs (RunTests (Some (lit "t")) 2 None 5 (Some (lit "demo")) (Some (lit "out")) true).
Proof. exact demo_asks. Qed.

Example C98_tests_example : proceeds (fst demo_out) (whole_program true there (lit "test" :: demo_args)) (Tests plain (snd demo_out)) /\
  ended_with (Tests plain (snd demo_out)) = Some (Code 0) /\ fst demo_out = [Mute (Tester 1)] /\ length (log (Tests plain (snd demo_out))) = 12%nat.
Proof. exact demo_program. Qed.

Example C98_loads_example : exists src s1 body, loads (os_world there) (root_of (option_map (os_look there) (Some (lit "demo"))) home) src s1 /\ mget (lit "t") (s_tests src) = Some body.
Proof. exact demo_found. Qed.

Theorem C98_all : forall checks o args gs threads duration number path record stat h src s1 fs c, written gs args -> once_each gs -> asks checks gs (RunTests None threads duration number path record stat) -> os_here o = Some h ->
  loads (os_world o) (root_of (option_map (os_look o) path) h) src s1 -> N.of_nat (length (os_iter o (s_tests src))) <= 2 ^ 32 ->
  proceeds fs (whole_program checks o (lit "test" :: args)) c -> ended_with c = Some (Code 0) ->
  exists l, log c = map snd l /\
  (forall id name body, nth_error (os_iter o (s_tests src)) (N.to_nat id) = Some (name, body) ->
    exists r s2, eval_block (os_worlds o id) body (St (Ctx (c_vars (s_ctx s1)) (c_reqs (s_ctx s1)) []) []) = (r, s2) /\
    let own := events_of (Tester id) l in let whole := s_trace s2 ++ afterwards_once (os_worlds o id) r s2 in
    (~ In (Mute (Tester id)) fs -> own = whole /\ r <> Diverge) /\
    (In (Mute (Tester id)) fs -> exists x rest, whole = own ++ Printed x :: rest) /\
    (forall dir, record = Some dir -> let g := into o dir stat in let file := record_path g (os_pod o) id in
      (In (Mute (Tester id)) fs \/ r = Panic -> mget file (files o c) = Some (recorded g file name id [])) /\
      (~ In (Mute (Tester id)) fs -> r <> Panic -> mget file (files o c) = Some (recorded g file name id [c_recs (s_ctx s2)])))) /\
  (stat = false \/ In (Mute Collector) fs -> events_of Collector l = []) /\
  (stat = true -> ~ In (Mute Collector) fs -> events_of Collector l = [Printed []]).
Proof. exact program_all. Qed.
Print Assumptions C98_all.
Example C98_all_example : proceeds [Mute (Tester 0)] (whole_program true all_there [lit "test"; lit "--record"; lit "out"; lit "-t9"; lit "-n9"; lit "-s"]) (Tests plain (snd all_muted)) /\
  ended_with (Tests plain (snd all_muted)) = Some (Code 0).
Proof. exact all_program. Qed.

Theorem C98_nowhere : forall checks o args gs name threads duration number path record stat fs c, written gs args -> once_each gs -> asks checks gs (RunTests name threads duration number path record stat) -> os_here o = None ->
  proceeds fs (whole_program checks o (lit "test" :: args)) c -> fs = [] /\ ended_with c = Some (Code 101) /\ log c = [] /\ files o c = os_disk o.
Proof. exact program_nowhere. Qed.
Print Assumptions C98_nowhere.
