(** A suite under other names. *)
From Verif Require Import TextProofs EvalExamples ReportExamples ValueExamples PrintsExamples ChainExamples BranchExamples WholeExamples TallyProofs SpecProcess SpecBranch SpecTally ProcessExamples TallyExamples  PaceExamples FixedExamples  AddedProofs AddedExamples LabelProofs SpecProcess SpecPace SpecAdded SpecLabel ProcessExamples.
Open Scope N_scope.

Definition plain_names : str := lit "request r `GET http://h/`[status == 200] test t { let a = r(); println(a.body) } test u { r() }".
Definition long_names : str := lit "request r `GET http://h/`[status == 200] test checkout { let a = r(); println(a.body) } test u { r() }".
Definition longer (n : str) : str := if str_eqb n (lit "t") then lit "checkout" else n.
Definition label_run_of (t : str) (n : option str) : process := launch (@rev _) counting (at_file t) n 1 None 2 true (lit "pod") [].
Definition label_done (t : str) (n : option str) : process := play counting_setting ([Onward; Onward; Onward] ++ taking_turns 20) (label_run_of t n).
Lemma label_example : exists src src',
  read_node (fst (at_file plain_names)) (snd (at_file plain_names)) = Some plain_names /\ parse plain_names = Ok src /\
  read_node (fst (at_file long_names)) (snd (at_file long_names)) = Some long_names /\ parse long_names = Ok src' /\ relabelled longer src src' /\ src <> src' /\
  In (lit "t") (map fst (s_tests src)) /\ rev (s_tests src') = relabel longer (rev (s_tests src)) /\
  goes counting_setting (label_run_of plain_names (Some (lit "t"))) (label_done plain_names (Some (lit "t"))) /\ p_main (label_done plain_names (Some (lit "t"))) = Gone true /\ length (p_log (label_done plain_names (Some (lit "t")))) = 7%nat /\
  goes counting_setting (label_run_of plain_names None) (label_done plain_names None) /\ p_main (label_done plain_names None) = Gone true /\ length (p_log (label_done plain_names None)) = 6%nat /\
  p_disk (label_done long_names (Some (lit "checkout"))) <> p_disk (label_done plain_names (Some (lit "t"))).
Proof.
  do 2 eexists. split; [vm_compute; reflexivity|]. split; [vm_compute; reflexivity|]. split; [vm_compute; reflexivity|]. split; [vm_compute; reflexivity|].
  split; [split; [reflexivity|split; [reflexivity|split; [vm_compute; reflexivity|]]]|].
  { intros a b A B E. cbn in A, B. destruct A as [<-|[<-|[]]], B as [<-|[<-|[]]]; try reflexivity; vm_compute in E; discriminate. }
  split; [discriminate|]. split; [vm_compute; tauto|]. split; [vm_compute; reflexivity|].
  split; [unfold label_done; apply play_goes|]. split; [vm_compute; reflexivity|]. split; [vm_compute; reflexivity|].
  split; [unfold label_done; apply play_goes|]. split; [vm_compute; reflexivity|]. split; [vm_compute; reflexivity|]. vm_compute. discriminate.
Qed.
