(** The record files of a concrete run. *)
From Verif Require Import TextProofs EvalExamples ReportExamples ValueExamples PrintsExamples ChainExamples BranchExamples WholeExamples TallyExamples RecordProofs FiledProofs SpecProcess SpecBranch SpecTally SpecFiled ProcessExamples.
From Coq Require Import Lia.
Open Scope N_scope.

Definition filed_launch : process := launch (@rev _) slow (at_file whole_text) (Some (lit "one")) 2 None 4 true (lit "p") [].
Definition filed_finish : process := play slow_setting ([Onward; Onward; Onward] ++ taking_turns 60) filed_launch.
Definition all_filed_launch : process := launch (@rev _) slow (at_file whole_text) None 1 None 1 true (lit "p") [].
Definition all_filed_finish : process := play slow_setting ([Onward; Onward; Onward; Onward] ++ repeat (Moves 2) 60 ++ taking_turns 60) all_filed_launch.
Lemma slow_quick : quick slow.
Proof.
  assert (E : forall p tr msg rq rs t er, client_send p (e_net slow tr []) msg = Ok (rq, rs, t, er) ->
    Forall (fun d => d < 2 ^ 63) [t_start t; t_end t; t_total t; t_resolve t; t_connect t; t_write t; t_delay t; t_read t]).
  { intros p tr msg rq rs t er. unfold client_send. destruct (request_from p msg) as [q c]. destruct tr as [|ev tr]; intros H; vm_compute in H; injection H as _ _ <- _; repeat constructor. }
  intros tr msg. apply E.
Qed.
Lemma filed_example : suite_fits shop_vars shop_demands shop_tests /\ (forall id, serves (g_world slow_setting id) shop_demands /\ quick (g_world slow_setting id)) /\
  read_node (fst (at_file whole_text)) (snd (at_file whole_text)) = Some whole_text /\ In (lit "one", [take_demand; look_demand; take_demand]) shop_tests /\
  (forall path, g_accepts slow_setting path = []) /\ goes slow_setting filed_launch filed_finish /\ p_main filed_finish = Gone true /\
  record_path slow_setting (lit "p") 1 = lit "out/p000001" /\ (exists file, mget (lit "out/p000001") (p_disk filed_finish) = Some file /\ small file /\ length file = 2635%nat) /\
  goes slow_setting all_filed_launch all_filed_finish /\ p_main all_filed_finish = Gone true /\
  map (fun n => option_map (@length N) (mget n (p_disk all_filed_finish))) [lit "out/p000000"; lit "out/p000001"; lit "out/p000002"; lit "out/p000003"] = [Some 2139%nat; Some 2041%nat; Some 2329%nat; None].
Proof.
  destruct tally_example as (A & B & C & D & _). split; auto. split; [intros id; split; [apply B|exact slow_quick]|]. split; auto. split; auto. split; [reflexivity|].
  split; [apply play_goes|]. split; [vm_compute; reflexivity|]. split; [vm_compute; reflexivity|]. split. { eexists. split; [vm_compute; reflexivity|]. split; vm_compute; reflexivity. }
  split; [apply play_goes|]. split; vm_compute; reflexivity.
Qed.
