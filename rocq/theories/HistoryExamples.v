(** A history with two exchanges *)
From Verif Require Import SpecHistory EvalExamples ReportExamples.
Open Scope N_scope.

Lemma history_example : exists src v s', parse ask_twice = Ok src /\
  eval_block honest (s_exprs src) (St (ctx_extend ctx_new (s_requests src)) []) = (Ok v, s') /\
  c_reqs (ctx_extend ctx_new (s_requests src)) = s_requests src /\
  sent (s_trace s') = 2%nat /\ map r_name (c_recs (s_ctx s')) = [lit "r"; lit "r"] /\ map passed (c_recs (s_ctx s')) = [true; false].
Proof.
  assert (X : match parse ask_twice with
    | Ok src => c_reqs (ctx_extend ctx_new (s_requests src)) = s_requests src /\
        match eval_block honest (s_exprs src) (St (ctx_extend ctx_new (s_requests src)) []) with
        | (Ok v, s') => sent (s_trace s') = 2%nat /\ map r_name (c_recs (s_ctx s')) = [lit "r"; lit "r"] /\ map passed (c_recs (s_ctx s')) = [true; false]
        | _ => False
        end
    | _ => False
    end) by (vm_compute; auto).
  destruct (parse ask_twice) as [src|e| |]; try contradiction. destruct X as [R X].
  destruct (eval_block _ _ _) as [[v|e| |] s'] eqn:E; try contradiction. exists src, v, s'. repeat split; auto; apply X.
Qed.
