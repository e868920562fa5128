(** C136 *)
From Verif Require Import EvalExamples PrintsExamples WholeExamples TallyExamples FiledExamples AsideProofs AsideExamples SpecProcess SpecAside ProcessExamples.
Open Scope N_scope.

(** C136.  Recording and statistics change nothing else *)

Theorem C136_off : forall g g' iter w root name threads duration number record pod pod' d d' p, same_worlds g g' -> g_stat g' = false ->
  goes g (launch iter w root name threads duration number record pod d) p ->
  exists p', goes g' (launch iter w root name threads duration number false pod' d') p' /\ p_log p' = tests_part (p_log p) /\ p_flag p' = p_flag p /\ p_disk p' = d' /\
    ((forall path, g_creates g path = true) -> forall b, p_main p = Gone b -> p_main p' = Gone b).
Proof. exact aside_off. Qed.
Print Assumptions C136_off.
Theorem C136_on : forall g g' iter w root name threads duration number record pod pod' d d' p', same_worlds g g' -> g_stat g' = false -> (forall path, g_creates g path = true) ->
  goes g' (launch iter w root name threads duration number false pod' d') p' ->
  exists p, goes g (launch iter w root name threads duration number record pod d) p /\ tests_part (p_log p) = p_log p' /\ p_flag p = p_flag p' /\ (forall b, p_main p' = Gone b -> p_main p = Gone b).
Proof. exact aside_on. Qed.
Print Assumptions C136_on.
Theorem C136_any : forall g1 g2 iter w root name threads duration number record1 record2 pod1 pod2 d1 d2 p1, same_worlds g1 g2 -> (forall path, g_creates g2 path = true) ->
  goes g1 (launch iter w root name threads duration number record1 pod1 d1) p1 ->
  exists p2, goes g2 (launch iter w root name threads duration number record2 pod2 d2) p2 /\ tests_part (p_log p2) = tests_part (p_log p1) /\ p_flag p2 = p_flag p1 /\
    ((forall path, g_creates g1 path = true) -> forall b, p_main p1 = Gone b -> p_main p2 = Gone b).
Proof. exact aside_any. Qed.
Print Assumptions C136_any.
Theorem C136_unrecorded : forall g iter w root name threads duration number pod d p, goes g (launch iter w root name threads duration number false pod d) p ->
  p_disk p = d /\ (p_main p = Gone false -> p_main (launch iter w root name threads duration number false pod d) = Gone false).
Proof. exact unrecorded. Qed.
Print Assumptions C136_unrecorded.
Example C136_example : same_worlds slow_setting bare_setting /\ g_stat slow_setting = true /\ g_stat bare_setting = false /\ (forall path, g_creates slow_setting path = true) /\
  goes slow_setting filed_launch filed_finish /\ p_main filed_finish = Gone true /\ of_collector (p_log filed_finish) = 1%nat /\ map (fun x => length (snd x)) (p_disk filed_finish) <> [] /\
  goes bare_setting bare_launch bare_finish /\ p_main bare_finish = Gone true /\ of_collector (p_log bare_finish) = 0%nat /\ p_disk bare_finish = [] /\ length (p_log bare_finish) = 24%nat.
Proof. exact aside_example. Qed.

Theorem C136_denied_refuted : exists g g' iter w root name threads duration number pod d p, same_worlds g g' /\ g_stat g' = false /\ goes g (launch iter w root name threads duration number true pod d) p /\ p_main p = Gone false /\
  forall p', goes g' (launch iter w root name threads duration number false pod d) p' -> p_main p' <> Gone false.
Proof. exact denied_matters. Qed.
Print Assumptions C136_denied_refuted.
