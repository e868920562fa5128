(** A server that two threads share. *)
From Verif Require Import TextProofs EvalExamples PrintsExamples WholeExamples TallyExamples ShuffleProofs ShuffleExamples SharedProofs SpecProcess SpecAside SpecShuffle SpecCausal SpecShared ProcessExamples.
Open Scope N_scope.

(** the first request of all is answered otherwise than all others, whoever makes it *)
Definition first_served : server := fun l _ m => e_net slow match l with [] => [] | _ => [Sent []] end m.
(** what this means for a thread that comes first, and for one that does not *)
Definition coming_first : env := Env (e_host slow) (e_prepare slow) (fun t m => e_net slow match t with [] => [] | _ => [Sent []] end m).
Definition coming_later : env := Env (e_host slow) (e_prepare slow) (fun _ m => e_net slow [Sent []] m).
Definition led_by (k : N) : setting := Setting true (lit "out") (fun _ => true) (fun _ => []) (fun id => if id =? k then coming_first else coming_later) (fun l => l) false.
Lemma led_answered k : forall l, tests_part l <> [] -> match tests_part l with [] => True | (x, _) :: _ => x = Tester k end -> answered_by first_served (led_by k) l.
Proof.
  intros l _ H l1 id msg l2 E. rewrite E in H. unfold first_served. cbn [g_world led_by]. destruct l1 as [|[x e] l1]; cbn [app] in H.
  - injection H as ->. rewrite N.eqb_refl. reflexivity.
  - subst x. change ((Tester k, e) :: l1) with ([(Tester k, e)] ++ l1). rewrite events_app. destruct (N.eqb_spec id k) as [->|N].
    + rewrite events_own. reflexivity.
    + reflexivity.
Qed.
Definition led_finish : process := play (led_by 0) ([Onward; Onward; Onward; Moves 0; Moves 0] ++ taking_turns 20) slow_launch.
Definition other_finish : process := play (led_by 1) ([Onward; Onward; Onward; Moves 1; Moves 1] ++ taking_turns 20) slow_launch.
Definition led_begun : process := play (led_by 0) ([Onward; Onward; Onward; Moves 0; Moves 0] ++ taking_turns 5) slow_launch.
Lemma can_stop g p : p_main p = Joining -> exists q, process_step g p q.
Proof. destruct p. cbn. intros ->. eexists. apply ps_stop. Qed.
Lemma shared_example : (forall path, g_creates (led_by 0) path = true) /\ numbered_apart (@rev _) slow (at_file whole_text) (Some (lit "one")) /\
  goes (led_by 0) slow_launch led_begun /\ (0 < length (events_of (Tester 0) (p_log led_begun)) /\ 0 < length (events_of (Tester 1) (p_log led_begun)))%nat /\ answered_by first_served (led_by 0) (p_log led_begun) /\ (exists q, process_step (led_by 0) led_begun q) /\
  goes (led_by 0) slow_launch led_finish /\ p_main led_finish = Gone true /\ answered_by first_served (led_by 0) (p_log led_finish) /\ starts_with (map fst (tests_part (p_log led_begun))) (map fst (tests_part (p_log led_finish))).
Proof.
  split; [reflexivity|]. split; [intros E; discriminate E|]. split; [apply play_goes|]. split; [vm_compute; split; repeat constructor|]. split; [apply led_answered; [vm_compute; discriminate|vm_compute; reflexivity]|].
  split; [apply can_stop; vm_compute; reflexivity|]. split; [apply play_goes|]. split; [vm_compute; reflexivity|]. split; [apply led_answered; [vm_compute; discriminate|vm_compute; reflexivity]|].
  exists (skipn (length (tests_part (p_log led_begun))) (map fst (tests_part (p_log led_finish)))). vm_compute. reflexivity.
Qed.
(** against such a server what a thread does depends on the order *)
Lemma order_matters : exists v g g' p p', goes g slow_launch p /\ goes g' slow_launch p' /\ p_main p = Gone true /\ p_main p' = Gone true /\ answered_by v g (p_log p) /\ answered_by v g' (p_log p') /\
  (forall id, same_machine (g_world g id) (g_world g' id)) /\ events_of (Tester 0) (p_log p) <> events_of (Tester 0) (p_log p').
Proof.
  exists first_served, (led_by 0), (led_by 1), led_finish, other_finish. split; [apply play_goes|]. split; [apply play_goes|]. split; [vm_compute; reflexivity|]. split; [vm_compute; reflexivity|].
  split; [apply led_answered; [vm_compute; discriminate|vm_compute; reflexivity]|]. split; [apply led_answered; [vm_compute; discriminate|vm_compute; reflexivity]|].
  split; [intros id; cbn; destruct (id =? 0), (id =? 1); split; reflexivity|]. vm_compute. discriminate.
Qed.
