(** C142 *)
From Verif Require Import EvalExamples PrintsExamples WholeExamples TallyExamples PaceProofs PaceExamples SpecProcess SpecPace ProcessExamples.
Open Scope N_scope.

(** C142.  How long answers take changes nothing but the durations shown *)

Theorem C142_run : forall g g' iter w w' root name threads duration number record pod d p, same_but_pace w w' -> steady w -> steady w' -> other_networks g g' ->
  (forall id, same_but_pace (g_world g id) (g_world g' id) /\ steady (g_world g id) /\ steady (g_world g' id)) ->
  goes g (launch iter w root name threads duration number record pod d) p ->
  exists p', goes g' (launch iter w' root name threads duration number record pod d) p' /\
    p_main p' = p_main p /\ p_flag p' = p_flag p /\ same_log_but_durations (p_log p) (p_log p') /\ same_files (p_disk p) (p_disk p').
Proof. exact pace_run. Qed.
Print Assumptions C142_run.
Example C142_example : same_but_pace (paced_by 1) (paced_by 700) /\ steady (paced_by 1) /\ steady (paced_by 700) /\ other_networks (paced_setting 1) (paced_setting 700) /\
  (forall id, same_but_pace (g_world (paced_setting 1) id) (g_world (paced_setting 700) id) /\ steady (g_world (paced_setting 1) id) /\ steady (g_world (paced_setting 700) id)) /\
  goes (paced_setting 1) (paced_launch 1) (paced_finish 1) /\ p_main (paced_finish 1) = Gone true /\ length (p_log (paced_finish 1)) = 25%nat /\
  goes (paced_setting 700) (paced_launch 700) (paced_finish 700) /\ p_main (paced_finish 700) = Gone true /\ p_log (paced_finish 700) <> p_log (paced_finish 1).
Proof. exact pace_example. Qed.

