(** Builds: cases *)
From Verif Require Import EvalExamples BuildProofs SpecEval SpecBuild.
Open Scope N_scope.

(** a text that prints, sends a request and then overflows *)
Definition overflowing : str := lit "request get`GET http://h/`; println(""on""); let r = get(); let m = 9223372036854775807; m + r.status".
Lemma overflow_example :
  eval_main (in_build true online) overflowing = (Some false, [Printed (lit "on" ++ [10]); Sent (lit "GET http://h/")]) /\
  eval_main (in_build false online) overflowing =
    (Some true, [Printed (lit "on" ++ [10]); Sent (lit "GET http://h/"); Printed (lit "-9223372036854775609" ++ [10])]).
Proof. split; vm_compute; reflexivity. Qed.
(** and one that does not *)
Lemma agreeing_example : exists tr,
  eval_main (in_build true online) (lit "request get`GET http://h/`; let r = get(); r.status << 2") = (Some true, tr ++ [Printed (lit "800" ++ [10])]) /\
  eval_main (in_build false online) (lit "request get`GET http://h/`; let r = get(); r.status << 2") = (Some true, tr ++ [Printed (lit "800" ++ [10])]).
Proof. exists [Sent (lit "GET http://h/")]. split; vm_compute; reflexivity. Qed.

(** a thread whose test adds 1 to a variable *)
Definition adding : list expr := [ELet (lit "n") (EBin (op KAdd "+") (EIdent (lit "n")) (EInt 1))].
Definition starting (z : Z) : ctx := ctx_set ctx_new (lit "n") (VInt z).
Definition moves (b : bool) (z : Z) (k : nat) : thread :=
  Nat.iter k (fun t => fst (thread_move (lit "t") adding 2 false true t)) (start_thread (starting z) (in_build b online) None 0).
Lemma moves_execute (b : bool) z k : executes (fun l => l) (lit "t") adding 2 false (run_start (starting z) (fun _ => in_build b online) (fun _ => None) 1)
  (Run [moves b z k] true [] [] Receiving).
Proof.
  induction k as [|k IH]; [constructor|]. destruct (live (th_phase (moves b z k))) eqn:L.
  - eapply ex_step; [exact IH|]. change (moves b z (S k)) with (fst (thread_move (lit "t") adding 2 false true (moves b z k))).
    pose proof (step_thread (fun l => l) (lit "t") adding 2 false [] (moves b z k) [] true [] [] Receiving) as S. cbn [app] in S.
    destruct (thread_move (lit "t") adding 2 false true (moves b z k)) as [t' sent] eqn:M. specialize (S t' sent L eq_refl). cbn [fst].
    replace (match sent with Some rs => [rs] | None => [] end) with (@nil (list record)) in S; [exact S|].
    unfold thread_move in M. destruct (th_phase (moves b z k)); try (injection M as <- <-; reflexivity).
    destruct (eval_block _ _ _) as [[v|e| |] s1]; injection M as <- <-; reflexivity.
  - replace (moves b z (S k)) with (moves b z k); [exact IH|]. change (moves b z (S k)) with (fst (thread_move (lit "t") adding 2 false true (moves b z k))).
    unfold thread_move. destruct (th_phase (moves b z k)); try discriminate L; reflexivity.
Qed.
Lemma two_runs_example :
  executes (fun l => l) (lit "t") adding 2 false (run_start (starting 5) (fun _ => in_build true online) (fun _ => None) 1) (Run [moves true 5 5] true [] [] Receiving) /\
  no_crash (Run [moves true 5 5] true [] [] Receiving) /\ th_phase (moves true 5 5) = Finished /\ mget (lit "n") (c_vars (s_ctx (th_state (moves true 5 5)))) = Some (VInt 7) /\
  th_phase (moves true i64_max 2) = Crashed /\ mget (lit "n") (c_vars (s_ctx (th_state (moves false i64_max 5)))) = Some (VInt (i64_min + 1)).
Proof. split; [apply moves_execute|]. split; [constructor; [vm_compute; discriminate|constructor]|]. repeat split; vm_compute; reflexivity. Qed.
