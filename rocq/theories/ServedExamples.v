(** A server that two threads share, to the end. *)
From Verif Require Import TextProofs ParserTermination EvalExamples PrintsExamples WholeExamples TallyExamples ShuffleProofs ShuffleExamples SharedProofs SharedExamples BudgetExamples SpecProcess SpecAside SpecShuffle SpecCausal SpecShared SpecBudget SpecServed ProcessExamples.
Open Scope N_scope.

Lemma slow_readable tr msg rs : response_from (x_reply (e_net slow tr msg)) = inl rs -> no_bang (segment (rs_body rs)).
Proof. intros H. destruct tr; vm_compute in H; inversion H; subst; apply no_bangb_ok; vm_compute; reflexivity. Qed.
Lemma served_example : (exists src s1 body, loads slow (at_file whole_text) src s1 /\ mget (lit "one") (s_tests src) = Some body /\ N.of_nat (length (rev (s_tests src))) <= 2 ^ 32) /\
  (forall path, g_creates (led_by 0) path = true) /\ (forall id, readable_bodies (g_world (led_by 0) id)) /\ readable_server first_served /\
  goes (led_by 0) slow_launch led_begun /\ answered_by first_served (led_by 0) (p_log led_begun) /\ p_main led_begun = Joining.
Proof.
  split; [destruct budget_example as (src & s1 & body & A & B & _ & _ & _ & _ & _ & _ & _ & C & _); eauto 8|]. split; [reflexivity|].
  split; [intros id tr msg rs; cbn [g_world led_by]; destruct (id =? 0); apply slow_readable|]. split; [intros l id msg rs; apply slow_readable|].
  destruct shared_example as (_ & _ & A & _ & B & _). split; [exact A|]. split; [exact B|]. vm_compute. reflexivity.
Qed.
