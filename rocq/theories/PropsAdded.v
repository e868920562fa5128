(** C143 *)
From Verif Require Import EvalExamples PrintsExamples WholeExamples TallyExamples AddedProofs AddedExamples SpecProcess SpecPace SpecAdded ProcessExamples.
Open Scope N_scope.

(** C143.  More assertions change nothing but the reports *)

Theorem C143_run : forall g iter w root root' text text' src src' name threads duration number record pod d p, sees_messages w -> (forall id, sees_messages (g_world g id)) ->
  read_node (fst root) (snd root) = Some text -> parse text = Ok src -> read_node (fst root') (snd root') = Some text' -> parse text' = Ok src' -> more_asserted src src' ->
  goes g (launch iter w root name threads duration number record pod d) p ->
  exists p', goes g (launch iter w root' name threads duration number record pod d) p' /\
    same_stage (p_main p) (p_main p') /\ p_flag p' = p_flag p /\ same_log_or_more (p_log p) (p_log p') /\ same_files (p_disk p) (p_disk p').
Proof. exact added_run. Qed.
Print Assumptions C143_run.
Theorem C143_back : forall g iter w root root' text text' src src' name threads duration number record pod d p', sees_messages w -> (forall id, sees_messages (g_world g id)) ->
  read_node (fst root) (snd root) = Some text -> parse text = Ok src -> read_node (fst root') (snd root') = Some text' -> parse text' = Ok src' -> more_asserted src src' ->
  goes g (launch iter w root' name threads duration number record pod d) p' ->
  exists p, goes g (launch iter w root name threads duration number record pod d) p /\
    same_stage (p_main p) (p_main p') /\ p_flag p' = p_flag p /\ same_log_or_more (p_log p) (p_log p') /\ same_files (p_disk p) (p_disk p').
Proof. exact added_back. Qed.
Print Assumptions C143_back.
Example C143_example : exists src src', sees_messages counting /\ (forall id, sees_messages (g_world counting_setting id)) /\
  read_node (fst (at_file few_text)) (snd (at_file few_text)) = Some few_text /\ parse few_text = Ok src /\
  read_node (fst (at_file many_text)) (snd (at_file many_text)) = Some many_text /\ parse many_text = Ok src' /\ more_asserted src src' /\ src <> src' /\
  goes counting_setting (counting_run few_text) (counting_done few_text) /\ p_main (counting_done few_text) = Gone true /\
  goes counting_setting (counting_run many_text) (counting_done many_text) /\ p_main (counting_done many_text) = Gone true /\
  nth_error (p_log (counting_done few_text)) 4 = Some (Tester 0, Printed (report_with (lit "r") (lit "10ns") [(lit "status == 200 => 200 == 200", true)])) /\
  nth_error (p_log (counting_done many_text)) 4 = Some (Tester 0, Printed (report_with (lit "r") (lit "10ns")
    [(lit "json.a[0] != 3 => null != 3", true); (lit "status == 200 => 200 == 200", true); (lit "(body) == ""ok"" => no == ok", false); (lit "length(body) == 2 => 2 == 2", true)])).
Proof. exact added_example. Qed.

(** but not assertions that set variables *)

Theorem C143_sets_refuted : exists src src', parse mild_text = Ok src /\ parse bold_text = Ok src' /\ s_exprs src' = s_exprs src /\ s_tests src' = s_tests src /\
  exists p p', goes counting_setting (counting_run mild_text) p /\ p_main p = Gone true /\ goes counting_setting (counting_run bold_text) p' /\ p_main p' = Gone true /\
    nth_error (p_log p) 1 = Some (Tester 0, Printed (lit "200" ++ [10])) /\ nth_error (p_log p') 1 = Some (Tester 0, Printed (lit "1" ++ [10])).
Proof. exact looking_matters. Qed.
Print Assumptions C143_sets_refuted.
