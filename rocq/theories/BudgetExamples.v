(** A run that makes as many requests as are allowed. *)
From Verif Require Import TextProofs EvalExamples PrintsExamples WholeExamples TallyExamples BudgetProofs SpecProcess SpecBudget ProcessExamples.
Open Scope N_scope.

Definition everything_launch : process := launch (@rev _) slow (at_file whole_text) None 1 None 1 false [] [].
Definition everything_finish : process := play slow_setting ([Onward; Onward; Onward; Onward] ++ repeat (Moves 2) 20 ++ taking_turns 20) everything_launch.
Lemma budget_example : exists src s1 body, loads slow (at_file whole_text) src s1 /\ mget (lit "one") (s_tests src) = Some body /\ calls (s_exprs src) = 0 /\ calls body = 3 /\
  goes slow_setting slow_launch slow_finish /\ share None 4 2 = 2 /\ requests_by (Tester 0) (p_log slow_finish) = 6 /\ requests_by (Tester 1) (p_log slow_finish) = 6 /\ requests (p_log slow_finish) = rounds None 4 * calls body /\
  N.of_nat (length (rev (s_tests src))) <= 2 ^ 32 /\ goes slow_setting everything_launch everything_finish /\ calls (flat_map snd (rev (s_tests src))) = 4 /\ requests (p_log everything_finish) = 4.
Proof.
  destruct (parse whole_text) as [src|x| |] eqn:P; [|vm_compute in P; discriminate P..]. destruct (eval_block slow (s_exprs src) (St (Ctx [] (mextend [] (s_requests src)) []) [])) as [o s1] eqn:E. destruct (mget (lit "one") (s_tests src)) as [body|] eqn:M; [|vm_compute in P; injection P as <-; vm_compute in M; discriminate M].
  exists src, s1, body. assert (O : exists v, o = Ok v). { vm_compute in P. injection P as <-. vm_compute in E. injection E as <- _. eauto. } destruct O as [v ->].
  assert (N1 : calls (s_exprs src) = 0) by (vm_compute in P; injection P as <-; vm_compute; reflexivity). assert (N2 : calls body = 3) by (vm_compute in P; injection P as <-; vm_compute in M; injection M as <-; vm_compute; reflexivity).
  assert (N3 : N.of_nat (length (rev (s_tests src))) <= 2 ^ 32) by (vm_compute in P; injection P as <-; vm_compute; discriminate). assert (N4 : calls (flat_map snd (rev (s_tests src))) = 4) by (vm_compute in P; injection P as <-; vm_compute; reflexivity).
  split; [exists whole_text, v; split; [vm_compute; reflexivity|split; [exact P|exact E]]|]. split; [exact M|]. split; [exact N1|]. split; [exact N2|]. split; [apply play_goes|]. split; [reflexivity|]. split; [vm_compute; reflexivity|]. split; [vm_compute; reflexivity|].
  split; [rewrite N2; vm_compute; reflexivity|]. split; [exact N3|]. split; [apply play_goes|]. split; [exact N4|]. vm_compute. reflexivity.
Qed.
(** interrupted when both threads are about to begin: each makes its three requests *)
Definition begun_stopped : process := play slow_setting [Onward; Onward; Onward; Moves 0; Moves 1; Stops] slow_launch.
Definition begun_finish : process := play slow_setting (taking_turns 20) begun_stopped.
Lemma stopped_example : goes slow_setting slow_launch begun_stopped /\ p_flag begun_stopped = false /\ goes slow_setting begun_stopped begun_finish /\ p_main begun_finish = Gone true /\
  requests (p_log begun_stopped) = 0 /\ requests_by (Tester 0) (p_log begun_finish) = 3 /\ requests (p_log begun_finish) = 6.
Proof.
  split; [apply play_goes|]. split; [vm_compute; reflexivity|]. split; [unfold begun_finish; apply play_goes|]. repeat (split; [vm_compute; reflexivity|]). vm_compute. reflexivity.
Qed.
