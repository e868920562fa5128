(** A test that repeats its first round, and one whose first round fails. *)
From Coq Require Import Permutation.
From Verif Require Import TextProofs EvalExamples ValueExamples ReadsProofs TemplateProofs LiveProofs LiveExamples SteadyProofs SpecSteady ProcessExamples.
Open Scope N_scope.

Definition steady_text : str := lit "let n = 7; request get `GET http://h/{n}` test t { let r = get(); let code = r.status; } test f { get(); nosuch(); }".
Definition steady_online : setting := Setting true (lit "out") (fun _ => true) (fun _ => []) (fun _ => online) (fun l => l) false.
Definition steady_go (n : str) : process := launch (@rev _) online (at_file steady_text) (Some n) 2 None 7 true (lit "pod") [].
Definition steady_half (n : str) : process := play steady_online ([Onward; Onward; Onward] ++ repeat (Moves 0) 9) (steady_go n).
Definition steady_finish (n : str) : process := play steady_online ([Onward; Onward; Onward] ++ taking_turns 40) (steady_go n).
Definition failing_body : list expr := [ECall (lit "get") []; ECall (lit "nosuch") []].
Lemma failing_carries : carries_nothing fetch failing_body.
Proof. intros n _ []. Qed.
Lemma repeated_example : exists src s1 v s0 round, loads online (at_file steady_text) src s1 /\ mget (lit "t") (s_tests src) = Some steady_body /\ carries_nothing (c_reqs (s_ctx s1)) steady_body /\
  memoryless online /\ (forall id, g_world steady_online id = online) /\ first_round online steady_body (s_ctx s1) (Ok v) s0 round /\ length round = 2%nat /\ share None 7 2 = 3 /\
  goes steady_online (steady_go (lit "t")) (steady_half (lit "t")) /\ p_main (steady_half (lit "t")) <> Gone true /\ length (events_of (Tester 0) (p_log (steady_half (lit "t")))) = 3%nat /\
  goes steady_online (steady_go (lit "t")) (steady_finish (lit "t")) /\ p_main (steady_finish (lit "t")) = Gone true /\ p_flag (steady_finish (lit "t")) = true /\ (forall l, Permutation (g_order steady_online l) l) /\
  events_of Collector (p_log (steady_finish (lit "t"))) = [Printed (lit "get count=6  sum=0  avg=0  max=0  min=0" ++ [10])].
Proof.
  do 5 eexists. split; [do 2 eexists; split; [vm_compute; reflexivity|]; split; [vm_compute; reflexivity|]; vm_compute; reflexivity|].
  split; [vm_compute; reflexivity|]. split; [apply steady_example|]. split; [apply online_memoryless|]. split; [reflexivity|]. split; [split; [vm_compute; reflexivity|reflexivity]|].
  split; [vm_compute; reflexivity|]. split; [reflexivity|]. split; [unfold steady_half; apply play_goes|]. split; [vm_compute; discriminate|]. split; [vm_compute; reflexivity|].
  split; [unfold steady_finish; apply play_goes|]. split; [vm_compute; reflexivity|]. split; [vm_compute; reflexivity|]. split; [reflexivity|]. vm_compute. reflexivity.
Qed.
Lemma failing_example : exists src s1 e s0 round, loads online (at_file steady_text) src s1 /\ mget (lit "f") (s_tests src) = Some failing_body /\ carries_nothing (c_reqs (s_ctx s1)) failing_body /\
  first_round online failing_body (s_ctx s1) (Err e) s0 round /\ length round = 2%nat /\
  goes steady_online (steady_go (lit "f")) (steady_finish (lit "f")) /\ p_main (steady_finish (lit "f")) = Gone true /\ p_flag (steady_finish (lit "f")) = true.
Proof.
  do 5 eexists. split; [do 2 eexists; split; [vm_compute; reflexivity|]; split; [vm_compute; reflexivity|]; vm_compute; reflexivity|].
  split; [vm_compute; reflexivity|]. split; [exact failing_carries|]. split; [split; [vm_compute; reflexivity|reflexivity]|].
  split; [vm_compute; reflexivity|]. split; [unfold steady_finish; apply play_goes|]. split; vm_compute; reflexivity.
Qed.
