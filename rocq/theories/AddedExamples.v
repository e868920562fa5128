(** A suite that checks one thing and one that checks three. *)
From Coq Require Import Lia.
From Verif Require Import TextProofs EvalExamples ReportExamples ValueExamples PrintsExamples ChainExamples BranchExamples WholeExamples TallyProofs SpecProcess SpecBranch SpecTally ProcessExamples TallyExamples  PaceExamples FixedExamples AddedProofs SpecProcess SpecPace SpecAdded ProcessExamples.
Open Scope N_scope.

(** a server that answers the first request otherwise *)
Definition counting : env := Env (some_host true) (fun _ => true)
  (fun tr _ => Exchange 0 0 (inl 1) 3 None 4 5 (Reader (utf8 (lit "HTTP/1.1 200 OK" ++ [13; 10; 13; 10] ++ match messages tr with [] => lit "ok" | _ => lit "no" end)) None) 9 10 11).
Definition counting_setting : setting := Setting true (lit "out") (fun _ => true) (fun _ => []) (fun _ => counting) (fun l => l) false.
Definition counting_run (t : str) : process := launch (fun l => l) counting (at_file t) (Some (lit "t")) 1 None 1 false [] [].
Definition counting_done (t : str) : process := play counting_setting ([Onward; Onward; Onward] ++ taking_turns 20) (counting_run t).
Definition few_text : str := lit "request r `GET http://h/`[status == 200] test t { let a = r(); r(); println(a.body) }".
Definition many_text : str := lit "request r `GET http://h/`[json.a[0] != 3, status == 200, (body) == ""ok"", length(body) == 2] test t { let a = r(); r(); println(a.body) }".
Lemma counting_sees : sees_messages counting.
Proof. intros tr tr' m E. cbn [e_net counting]. now rewrite E. Qed.
Lemma added_example : exists src src', sees_messages counting /\ (forall id, sees_messages (g_world counting_setting id)) /\
  read_node (fst (at_file few_text)) (snd (at_file few_text)) = Some few_text /\ parse few_text = Ok src /\
  read_node (fst (at_file many_text)) (snd (at_file many_text)) = Some many_text /\ parse many_text = Ok src' /\ more_asserted src src' /\ src <> src' /\
  goes counting_setting (counting_run few_text) (counting_done few_text) /\ p_main (counting_done few_text) = Gone true /\
  goes counting_setting (counting_run many_text) (counting_done many_text) /\ p_main (counting_done many_text) = Gone true /\
  nth_error (p_log (counting_done few_text)) 4 = Some (Tester 0, Printed (report_with (lit "r") (lit "10ns") [(lit "status == 200 => 200 == 200", true)])) /\
  nth_error (p_log (counting_done many_text)) 4 = Some (Tester 0, Printed (report_with (lit "r") (lit "10ns")
    [(lit "json.a[0] != 3 => null != 3", true); (lit "status == 200 => 200 == 200", true); (lit "(body) == ""ok"" => no == ok", false); (lit "length(body) == 2 => 2 == 2", true)])).
Proof.
  do 2 eexists. split; [apply counting_sees|]. split; [intros; apply counting_sees|]. split; [vm_compute; reflexivity|]. split; [vm_compute; reflexivity|]. split; [vm_compute; reflexivity|]. split; [vm_compute; reflexivity|].
  split; [split; [reflexivity|split; [reflexivity|]]; cbn [s_requests]; constructor; [|constructor]; split; [reflexivity|split; [reflexivity|]]; cbn [snd]|].
  { apply mc_more; [repeat constructor|repeat constructor|]. apply mc_same. apply mc_more; [repeat constructor|repeat constructor|]. apply mc_more; [apply lk_length; repeat constructor|repeat constructor|]. constructor. }
  split; [discriminate|]. split; [unfold counting_done; apply play_goes|]. split; [vm_compute; reflexivity|]. split; [unfold counting_done; apply play_goes|]. split; [vm_compute; reflexivity|]. split; vm_compute; reflexivity.
Qed.

(** an assertion that sets a variable does more than look *)
Definition mild_text : str := lit "request r `GET http://h/` test t { let a = r(); println(""{x}"", a.status) }".
Definition bold_text : str := lit "request r `GET http://h/`[(let status = 1) == 1] test t { let a = r(); println(""{x}"", a.status) }".
Theorem looking_matters : exists src src', parse mild_text = Ok src /\ parse bold_text = Ok src' /\ s_exprs src' = s_exprs src /\ s_tests src' = s_tests src /\
  exists p p', goes counting_setting (counting_run mild_text) p /\ p_main p = Gone true /\ goes counting_setting (counting_run bold_text) p' /\ p_main p' = Gone true /\
    nth_error (p_log p) 1 = Some (Tester 0, Printed (lit "200" ++ [10])) /\ nth_error (p_log p') 1 = Some (Tester 0, Printed (lit "1" ++ [10])).
Proof.
  do 2 eexists. split; [vm_compute; reflexivity|]. split; [vm_compute; reflexivity|]. split; [reflexivity|]. split; [reflexivity|]. exists (counting_done mild_text), (counting_done bold_text).
  split; [unfold counting_done; apply play_goes|]. split; [vm_compute; reflexivity|]. split; [unfold counting_done; apply play_goes|]. split; [vm_compute; reflexivity|]. split; vm_compute; reflexivity.
Qed.
