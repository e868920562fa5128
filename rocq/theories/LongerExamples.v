(** A run of two threads and one of a single thread. *)
From Verif Require Import TextProofs EvalExamples PrintsExamples WholeExamples TallyExamples CausalProofs BudgetExamples LongerProofs SpecProcess SpecBudget ProcessExamples.
Open Scope N_scope.

(** one thread, two rounds, recorded; and the same with three rounds *)
Definition one_launch (number : N) : process := launch (@rev _) slow (at_file whole_text) (Some (lit "one")) 1 None number true (lit "pod") [].
Definition one_finish (number : N) : process := play slow_setting ([Onward; Onward] ++ taking_turns 40) (one_launch number).
Lemma longer_example : (exists src s1 body, loads slow (at_file whole_text) src s1 /\ mget (lit "one") (s_tests src) = Some body) /\
  goes slow_setting slow_launch slow_finish /\ p_main slow_finish = Gone true /\ p_flag slow_finish = true /\
  goes slow_setting (one_launch 2) (one_finish 2) /\ p_main (one_finish 2) = Gone true /\ p_flag (one_finish 2) = true /\ 4 / 2 = 2 /\
  goes slow_setting (one_launch 3) (one_finish 3) /\ p_main (one_finish 3) = Gone true /\ p_flag (one_finish 3) = true /\ share None 2 1 < share None 3 1 /\
  length (events_of (Tester 0) (p_log (one_finish 2))) = 12%nat /\ length (events_of (Tester 0) (p_log (one_finish 3))) = 18%nat /\ record_path slow_setting (lit "pod") 0 = lit "out/pod000000".
Proof.
  split; [destruct budget_example as (src & s1 & body & A & B & _); eauto 8|]. split; [apply play_goes|]. split; [vm_compute; reflexivity|]. split; [vm_compute; reflexivity|].
  split; [unfold one_finish; apply play_goes|]. split; [vm_compute; reflexivity|]. split; [vm_compute; reflexivity|]. split; [vm_compute; reflexivity|].
  split; [unfold one_finish; apply play_goes|]. split; [vm_compute; reflexivity|]. split; [vm_compute; reflexivity|]. split; [vm_compute; reflexivity|]. repeat (split; [vm_compute; reflexivity|]). vm_compute. reflexivity.
Qed.
