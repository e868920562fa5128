(** C144 *)
From Verif Require Import EvalExamples PrintsExamples WholeExamples TallyExamples AddedExamples LabelProofs LabelExamples SpecProcess SpecPace SpecAdded SpecLabel ProcessExamples.
Open Scope N_scope.

(** C144.  The names of tests choose and label, and nothing else *)

Theorem C144_run : forall f g iter iter' w root root' text text' src src' name threads duration number record pod d p, read_node (fst root) (snd root) = Some text -> parse text = Ok src -> read_node (fst root') (snd root') = Some text' -> parse text' = Ok src' -> relabelled f src src' ->
  match name with Some n => In n (map fst (s_tests src)) | None => iter' (s_tests src') = relabel f (iter (s_tests src)) end ->
  goes g (launch iter w root name threads duration number record pod d) p ->
  exists p', goes g (launch iter' w root' (option_map f name) threads duration number record pod d) p' /\
    same_stage (p_main p) (p_main p') /\ p_flag p' = p_flag p /\ p_log p' = p_log p /\ same_files (p_disk p) (p_disk p').
Proof. exact label_run. Qed.
Print Assumptions C144_run.
Theorem C144_back : forall f g iter iter' w root root' text text' src src' name threads duration number record pod d p', read_node (fst root) (snd root) = Some text -> parse text = Ok src -> read_node (fst root') (snd root') = Some text' -> parse text' = Ok src' -> relabelled f src src' ->
  match name with Some n => In n (map fst (s_tests src)) | None => iter' (s_tests src') = relabel f (iter (s_tests src)) end ->
  goes g (launch iter' w root' (option_map f name) threads duration number record pod d) p' ->
  exists p, goes g (launch iter w root name threads duration number record pod d) p /\
    same_stage (p_main p) (p_main p') /\ p_flag p' = p_flag p /\ p_log p' = p_log p /\ same_files (p_disk p) (p_disk p').
Proof. exact label_back. Qed.
Print Assumptions C144_back.
Example C144_example : exists src src',
  read_node (fst (at_file plain_names)) (snd (at_file plain_names)) = Some plain_names /\ parse plain_names = Ok src /\
  read_node (fst (at_file long_names)) (snd (at_file long_names)) = Some long_names /\ parse long_names = Ok src' /\ relabelled longer src src' /\ src <> src' /\
  In (lit "t") (map fst (s_tests src)) /\ rev (s_tests src') = relabel longer (rev (s_tests src)) /\
  goes counting_setting (label_run_of plain_names (Some (lit "t"))) (label_done plain_names (Some (lit "t"))) /\ p_main (label_done plain_names (Some (lit "t"))) = Gone true /\ length (p_log (label_done plain_names (Some (lit "t")))) = 7%nat /\
  goes counting_setting (label_run_of plain_names None) (label_done plain_names None) /\ p_main (label_done plain_names None) = Gone true /\ length (p_log (label_done plain_names None)) = 6%nat /\
  p_disk (label_done long_names (Some (lit "checkout"))) <> p_disk (label_done plain_names (Some (lit "t"))).
Proof. exact label_example. Qed.

