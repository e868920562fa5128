(** A run with and without record files and statistics. *)
From Verif Require Import TextProofs EvalExamples PrintsExamples WholeExamples TallyExamples FiledExamples AsideProofs SpecProcess SpecAside ProcessExamples.
Open Scope N_scope.

Definition bare_setting : setting := Setting false [] (fun _ => false) (fun _ => []) (fun _ => slow) (fun l => l) false.
Definition bare_launch : process := launch (@rev _) slow (at_file whole_text) (Some (lit "one")) 2 None 4 false [] [].
Definition bare_finish : process := play bare_setting ([Onward; Onward; Onward] ++ taking_turns 60) bare_launch.
Definition of_collector (l : list (who * event)) : nat := length (filter (fun x => match fst x with Collector => true | _ => false end) l).
Lemma aside_example : same_worlds slow_setting bare_setting /\ g_stat slow_setting = true /\ g_stat bare_setting = false /\ (forall path, g_creates slow_setting path = true) /\
  goes slow_setting filed_launch filed_finish /\ p_main filed_finish = Gone true /\ of_collector (p_log filed_finish) = 1%nat /\ map (fun x => length (snd x)) (p_disk filed_finish) <> [] /\
  goes bare_setting bare_launch bare_finish /\ p_main bare_finish = Gone true /\ of_collector (p_log bare_finish) = 0%nat /\ p_disk bare_finish = [] /\ length (p_log bare_finish) = 24%nat.
Proof.
  split; [intros id; reflexivity|]. split; [reflexivity|]. split; [reflexivity|]. split; [reflexivity|].
  split; [apply play_goes|]. split; [vm_compute; reflexivity|]. split; [vm_compute; reflexivity|]. split; [vm_compute; discriminate|].
  split; [apply play_goes|]. split; [vm_compute; reflexivity|]. split; [vm_compute; reflexivity|]. split; vm_compute; reflexivity.
Qed.
(** where a record file cannot be created the run with recording fails, and the one without does not *)
Definition denied_setting : setting := Setting false (lit "out") (fun _ => false) (fun _ => []) (fun _ => slow) (fun l => l) false.
Definition denied_finish : process := play denied_setting [Onward; Onward] filed_launch.
Lemma denied_matters : exists g g' iter w root name threads duration number pod d p, same_worlds g g' /\ g_stat g' = false /\ goes g (launch iter w root name threads duration number true pod d) p /\ p_main p = Gone false /\
  forall p', goes g' (launch iter w root name threads duration number false pod d) p' -> p_main p' <> Gone false.
Proof.
  exists denied_setting, bare_setting, (@rev _), slow, (at_file whole_text), (Some (lit "one")), 2, None, 4, (lit "p"), [], denied_finish.
  split; [intros id; reflexivity|]. split; [reflexivity|]. split; [apply play_goes|]. split; [vm_compute; reflexivity|].
  intros p' G E.
  assert (K : forall p, goes bare_setting (launch (@rev _) slow (at_file whole_text) (Some (lit "one")) 2 None 4 false (lit "p") []) p ->
    match p_main p with Starting js => Forall (fun j => j_file j = None) js | Joining => True | Gone b => b = true | _ => False end).
  { clear. intros p G. remember (launch _ _ _ _ _ _ _ _ _ _) as p0 eqn:E0. induction G as [q|q q1 q2 G IH S].
    - subst. vm_compute. repeat constructor.
    - specialize (IH E0). destruct S; cbn [p_main] in *; auto; try (inversion IH; subst; auto; fail); try contradiction.
      inversion IH as [|? ? A B]; subst. unfold new_tester in H. rewrite A in H. discriminate H. }
  specialize (K p' G). rewrite E in K. discriminate K.
Qed.
