(** A server and a slower one. *)
From Coq Require Import Lia.
From Verif Require Import TextProofs EvalExamples ReportExamples ValueExamples PrintsExamples ChainExamples BranchExamples WholeExamples TallyProofs SpecProcess SpecBranch SpecTally ProcessExamples TallyExamples SpecProcess SpecPace ProcessExamples.
Open Scope N_scope.

(** a server that counts requests, taking longer for later ones *)
Definition paced_by (k : N) : env := Env (some_host true) (fun _ => true)
  (fun tr _ => Exchange 0 0 (inl k) (3 * k) None (4 * k) (5 * k) (Reader (utf8 (lit "HTTP/1.1 200 OK" ++ [13; 10; 13; 10] ++ match messages tr with [] => lit "ok" | _ => lit "no" end)) None) (9 * k) (10 * k + k * N.of_nat (length tr)) (11 * k)).
Definition paced_setting (k : N) : setting := Setting true (lit "out") (fun _ => true) (fun _ => []) (fun _ => paced_by k) (fun l => l) false.
Definition paced_launch (k : N) : process := launch (@rev _) (paced_by k) (at_file whole_text) (Some (lit "one")) 2 None 4 false [] [].
Definition paced_finish (k : N) : process := play (paced_setting k) ([Onward; Onward; Onward] ++ taking_turns 20) (paced_launch k).
Lemma paced_alike k k' : same_but_pace (paced_by k) (paced_by k').
Proof. split; [split; reflexivity|]. intros tr tr' m E. unfold same_but_times. cbn [e_net paced_by x_connect x_write x_reply]. now rewrite E. Qed.
Lemma paced_steady k : steady (paced_by k).
Proof. intros tr m. unfold ordered. cbn [e_net paced_by x_start x_connected x_read x_first x_read_done x_done x_connect]. repeat split; try lia. intros d E. injection E as <-. lia. Qed.
Lemma pace_example : same_but_pace (paced_by 1) (paced_by 700) /\ steady (paced_by 1) /\ steady (paced_by 700) /\ other_networks (paced_setting 1) (paced_setting 700) /\
  (forall id, same_but_pace (g_world (paced_setting 1) id) (g_world (paced_setting 700) id) /\ steady (g_world (paced_setting 1) id) /\ steady (g_world (paced_setting 700) id)) /\
  goes (paced_setting 1) (paced_launch 1) (paced_finish 1) /\ p_main (paced_finish 1) = Gone true /\ length (p_log (paced_finish 1)) = 25%nat /\
  goes (paced_setting 700) (paced_launch 700) (paced_finish 700) /\ p_main (paced_finish 700) = Gone true /\ p_log (paced_finish 700) <> p_log (paced_finish 1).
Proof.
  split; [apply paced_alike|]. split; [apply paced_steady|]. split; [apply paced_steady|]. split; [repeat split|].
  split; [intros id; split; [apply paced_alike|split; apply paced_steady]|]. split; [unfold paced_finish; apply play_goes|]. split; [vm_compute; reflexivity|]. split; [vm_compute; reflexivity|].
  split; [unfold paced_finish; apply play_goes|]. split; [vm_compute; reflexivity|]. vm_compute. discriminate.
Qed.
