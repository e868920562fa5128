(** Servers that answer alike for a while. *)
From Verif Require Import TextProofs EvalExamples PrintsExamples WholeExamples TallyExamples ShuffleProofs ShuffleExamples CausalProofs SpecProcess SpecAside SpecShuffle SpecCausal ProcessExamples.
From Coq Require Import Lia.
Open Scope N_scope.

(** always answers as [slow] does at first *)
Definition steady : env := Env (e_host slow) (e_prepare slow) (fun _ m => e_net slow [] m).
Definition steady_setting : setting := Setting true (lit "out") (fun _ => true) (fun _ => []) (fun _ => steady) (fun l => l) false.
Definition steady_finish : process := play steady_setting ([Onward; Onward; Onward] ++ taking_turns 20) slow_launch.
(** the run with [slow] after two requests of the first thread *)
Definition slow_begun : process := play slow_setting ([Onward; Onward; Onward] ++ repeat (Moves 0) 4) slow_launch.
(** answers as [slow] does for a long time *)
Definition long_slow : env := Env (e_host slow) (e_prepare slow) (fun tr m => if (100 <? length tr)%nat then e_net slow [] m else e_net slow tr m).
Definition long_setting : setting := Setting true (lit "out") (fun _ => true) (fun _ => []) (fun _ => long_slow) (fun l => l) false.
Lemma causal_example : (forall path, g_creates steady_setting path = true) /\ numbered_apart (@rev _) slow (at_file whole_text) (Some (lit "one")) /\ goes slow_setting slow_launch slow_begun /\
  (exists a b, events_of (Tester 0) (p_log slow_begun) = [Sent a; Sent b]) /\
  (forall id, same_machine (g_world slow_setting id) (g_world steady_setting id) /\ same_answers_before (g_world slow_setting id) (g_world steady_setting id) (events_of (Tester id) (p_log slow_begun))) /\
  events_of (Tester 0) (p_log steady_finish) <> events_of (Tester 0) (p_log slow_finish).
Proof.
  split; [reflexivity|]. split; [intros E; discriminate E|]. split; [apply play_goes|].
  assert (E0 : exists a b, events_of (Tester 0) (p_log slow_begun) = [Sent a; Sent b]) by (vm_compute; eauto). split; auto. split; [|vm_compute; discriminate].
  assert (F : forallb by_two (p_log slow_begun) = true) by (vm_compute; reflexivity). assert (E1 : events_of (Tester 1) (p_log slow_begun) = []) by (vm_compute; reflexivity).
  generalize dependent (p_log slow_begun). intros l E0 F E1.
  intros id. split; [split; reflexivity|]. intros t msg [x X] N. destruct E0 as (a & b & E0). destruct (N.eq_dec id 0) as [->|I].
  - rewrite E0 in X, N. destruct t as [|e t]; [reflexivity|]. exfalso. apply N. destruct t as [|e' t]; [|destruct t; discriminate X]. cbn in X. injection X as -> -> _. reflexivity.
  - exfalso. assert (Z : events_of (Tester id) l = []) by (destruct (N.eq_dec id 1) as [->|J]; [exact E1|now apply others_silent]). rewrite Z in X. destruct t; discriminate X.
Qed.
Lemma answered_example : goes slow_setting slow_launch slow_finish /\ p_main slow_finish = Gone true /\
  (forall id, same_machine (g_world slow_setting id) (g_world long_setting id) /\ same_answers (g_world slow_setting id) (g_world long_setting id) (events_of (Tester id) (p_log slow_finish))) /\
  exists tr m, e_net (g_world long_setting 0) tr m <> e_net (g_world slow_setting 0) tr m.
Proof.
  split; [apply play_goes|]. split; [vm_compute; reflexivity|]. split.
  - intros id. split; [split; reflexivity|]. intros t msg [x X]. assert (L : (length (events_of (Tester id) (p_log slow_finish)) <= 24)%nat).
    { assert (Le : forall l : list (who * event), (length (events_of (Tester id) l) <= length l)%nat) by (intros l; unfold events_of; induction l as [|[y e] l IH]; [apply le_n|]; cbn [flat_map fst snd]; rewrite app_length; destruct (who_dec y (Tester id)); cbn [length]; lia).
      assert (T : length (tests_part (p_log slow_finish)) = 24%nat) by (vm_compute; reflexivity). rewrite <- T, <- (tests_events (Tester id)) by discriminate. apply Le. }
    rewrite X, !app_length in L. cbn [g_world long_setting slow_setting long_slow e_net]. destruct (100 <? length t)%nat eqn:B; auto. apply Nat.ltb_lt in B. exfalso. lia.
  - exists (repeat (Sent []) 101), []. vm_compute. discriminate.
Qed.
