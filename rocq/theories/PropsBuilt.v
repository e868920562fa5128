(** C147 *)
From Verif Require Import EvalExamples BuiltProofs BuiltExamples SpecProcess SpecBuilt ProcessExamples.
Open Scope N_scope.

(** C147.  Whole test runs in both builds *)

Theorem C147_release : forall g iter w root name threads duration number record pod d src s1 p, loads (in_build true w) root src s1 ->
  goes (setting_in true g) (launch iter (in_build true w) root name threads duration number record pod d) p -> unhurt p ->
  exists p', goes (setting_in false g) (launch iter (in_build false w) root name threads duration number record pod d) p' /\
    p_main p' = p_main p /\ p_flag p' = p_flag p /\ p_log p' = p_log p /\ p_disk p' = p_disk p.
Proof. exact built_run. Qed.
Print Assumptions C147_release.
Theorem C147_until : forall g iter w root name threads duration number record pod d src s1 p, loads (in_build true w) root src s1 ->
  goes (setting_in true g) (launch iter (in_build true w) root name threads duration number record pod d) p -> p_main p <> Gone true -> p_reported p = false ->
  exists p', goes (setting_in false g) (launch iter (in_build false w) root name threads duration number record pod d) p' /\
    p_main p' = p_main p /\ p_flag p' = p_flag p /\ p_log p' = p_log p /\ p_disk p' = p_disk p.
Proof. exact built_until. Qed.
Print Assumptions C147_until.
Theorem C147_debug : forall g iter w root name threads duration number record pod d src s1 p', loads (in_build true w) root src s1 ->
  (forall p, goes (setting_in true g) (launch iter (in_build true w) root name threads duration number record pod d) p -> unhurt p) ->
  goes (setting_in false g) (launch iter (in_build false w) root name threads duration number record pod d) p' ->
  exists p, goes (setting_in true g) (launch iter (in_build true w) root name threads duration number record pod d) p /\
    p_main p' = p_main p /\ p_flag p' = p_flag p /\ p_log p' = p_log p /\ p_disk p' = p_disk p.
Proof. exact built_back. Qed.
Print Assumptions C147_debug.
Theorem C147_riskless : forall g iter w root name threads duration number record pod d src s1 p, loads w root src s1 -> risk_free src -> (forall x, In x (iter (s_tests src)) -> In x (s_tests src)) ->
  (forall id, steady (g_world g id)) -> goes (setting_in true g) (launch iter w root name threads duration number record pod d) p -> unhurt p.
Proof. exact risk_free_unhurt. Qed.
Print Assumptions C147_riskless.
Example C147_example : (exists src s1, loads (in_build true online) (at_file built_text) src s1) /\
  goes (setting_in true built_setting) (built_go true built_text (lit "t")) (built_finish true built_text (lit "t")) /\ unhurt (built_finish true built_text (lit "t")) /\
  p_main (built_finish true built_text (lit "t")) = Gone true /\ p_log (built_finish false built_text (lit "t")) = p_log (built_finish true built_text (lit "t")) /\ length (p_log (built_finish true built_text (lit "t"))) = 13%nat /\
  goes (setting_in true built_setting) (built_go true built_text (lit "o")) (built_finish true built_text (lit "o")) /\ ~ unhurt (built_finish true built_text (lit "o")) /\
  goes (setting_in false built_setting) (built_go false built_text (lit "o")) (built_finish false built_text (lit "o")) /\ p_log (built_finish false built_text (lit "o")) <> p_log (built_finish true built_text (lit "o")).
Proof. exact built_example. Qed.

Example C147_until_example : goes (setting_in true built_setting) (built_go true built_text (lit "o")) built_half /\ ~ unhurt built_half /\ p_main built_half <> Gone true /\ p_reported built_half = false /\ p_log built_half = [(Tester 0, Printed (lit "5" ++ [10]))].
Proof. exact until_example. Qed.

Example C147_riskless_example : exists src s1, loads (in_build true online) (at_file riskless_text) src s1 /\ risk_free src /\ (forall x, In x (rev (s_tests src)) -> In x (s_tests src)) /\
  (forall id, steady (g_world built_setting id)) /\
  goes (setting_in true built_setting) (built_go true riskless_text (lit "t")) (built_finish true riskless_text (lit "t")) /\ p_main (built_finish true riskless_text (lit "t")) = Gone true /\ length (p_log (built_finish true riskless_text (lit "t"))) = 13%nat.
Proof. exact riskless_example. Qed.

