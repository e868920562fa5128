(** The statistics of a concrete run. *)
From Verif Require Import TextProofs EvalExamples ReportExamples ValueExamples PrintsExamples ChainExamples BranchExamples WholeExamples TallyProofs SpecProcess SpecBranch SpecTally ProcessExamples.
Open Scope N_scope.

(** a server that takes its time *)
Definition slow : env := Env (some_host true) (fun _ => true)
  (fun tr _ => Exchange 0 0 (inl 1) 3 None 4 5 (Reader (utf8 (lit "HTTP/1.1 200 OK" ++ [13; 10; 13; 10] ++ match tr with [] => lit "ok" | _ => lit "no" end)) None) 9 (match tr with [] => 7500000 | _ => 2000000 end) 11).
Definition slow_setting : setting := Setting true (lit "out") (fun _ => true) (fun _ => []) (fun _ => slow) (fun l => l) false.
Definition slow_launch : process := launch (@rev _) slow (at_file whole_text) (Some (lit "one")) 2 None 4 false [] [].
Definition slow_finish : process := play slow_setting ([Onward; Onward; Onward] ++ taking_turns 20) slow_launch.
Lemma slow_client tr msg : exists rq t, client_send (e_prepare slow) (e_net slow tr msg) msg = Ok (rq, honest_response tr, t, []).
Proof.
  assert (E : forall p, exists rq t, client_send p (e_net slow tr []) msg = Ok (rq, honest_response tr, t, [])).
  { intros p. unfold client_send. destruct (request_from p msg) as [q c]. destruct tr as [|ev tr]; vm_compute; eauto. }
  apply E.
Qed.
Lemma slow_answers msg : answered slow msg.
Proof.
  intros tr. destruct (slow_client tr msg) as (rq & t & E). exists rq, (honest_response tr), t, (@nil N).
  destruct (to_map (e_host slow) (honest_response tr)) as [m|x| |] eqn:M; [eauto|destruct tr; vm_compute in M; discriminate M..].
Qed.
Lemma slow_heard tr msg rs : heard slow tr msg rs -> heard honest tr msg rs.
Proof.
  intros (rq & t & er & E). destruct (slow_client tr msg) as (rq' & t' & E'). rewrite E in E'. injection E' as _ -> _ _. destruct (honest_client tr msg) as (a & b & X). exists a, b, (@nil N). exact X.
Qed.
Lemma tally_example : suite_fits shop_vars shop_demands shop_tests /\ (forall id, serves (g_world slow_setting id) shop_demands) /\
  read_node (fst (at_file whole_text)) (snd (at_file whole_text)) = Some whole_text /\ In (lit "one", [take_demand; look_demand; take_demand]) shop_tests /\
  g_stat slow_setting = true /\ (forall ks, Permutation (g_order slow_setting ks) ks) /\ goes slow_setting slow_launch slow_finish /\ p_main slow_finish = Gone true /\ p_flag slow_finish = true /\
  map (fun n => 2 * share None 4 2 * times_made n [take_demand; look_demand; take_demand]) [lit "take"; lit "look"; lit "put"] = [8; 4; 0] /\
  exists l, p_log slow_finish = l ++ [(Collector, Printed (lit "take count=8  sum=26  avg=3  max=7  min=2" ++ [10] ++ lit "look count=4  sum=8  avg=2  max=2  min=2" ++ [10]))].
Proof.
  destruct whole_example as (A & B & C & D & _). split; auto. split. { intros id. specialize (B id). unfold serves in *. eapply Forall_impl; [|exact B]. cbn beta. intros q [_ X]. split; [exact (slow_answers _)|]. intros tr rs H. apply (X tr). exact (slow_heard _ _ _ H). }
  split; auto. split; auto. split; [reflexivity|]. split; [intros ks; apply Permutation_refl|]. split; [apply play_goes|]. split; [vm_compute; reflexivity|]. split; [vm_compute; reflexivity|]. split; [vm_compute; reflexivity|].
  exists (removelast (p_log slow_finish)). vm_compute. reflexivity.
Qed.
