(** C101 *)
From Verif Require Import SpecHistory HistoryProofs EvalExamples ReportExamples HistoryExamples.
Open Scope N_scope.

(** C101.  The records of an evaluation are the history of its exchanges *)

Theorem C101_history : forall w es s o s', eval_block w es s = (o, s') ->
  c_reqs (s_ctx s') = c_reqs (s_ctx s) /\
  exists tr, chronicle w (c_reqs (s_ctx s)) (s_trace s) (c_recs (s_ctx s)) tr (c_recs (s_ctx s')) /\
    (s_trace s' = tr \/ ~ returns o /\ exists msg pr, s_trace s' = tr ++ Sent msg :: pr /\ sent pr = 0%nat).
Proof. exact block_history. Qed.
Print Assumptions C101_history.
Theorem C101_new : forall w reqs tr rs tr' rs', chronicle w reqs tr rs tr' rs' -> exists new trn,
  rs' = rs ++ new /\ tr' = tr ++ trn /\ (sent trn = length new)%nat /\
  Forall (fun r => exists before after msg pr, tr ++ trn = before ++ Sent msg :: after /\ exchange w reqs before r msg pr) new.
Proof. exact chronicle_new. Qed.
Print Assumptions C101_new.
Theorem C101_source : forall text src w es s o s', parse text = Ok src -> (forall n, mget n (c_reqs (s_ctx s)) = mget n (s_requests src)) -> c_recs (s_ctx s) = [] ->
  eval_block w es s = (o, s') ->
  Forall (fun r => exists template asserts before after msg, mget (r_name r) (s_requests src) = Some (template, asserts) /\
    s_trace s' = before ++ Sent msg :: after /\
    client_send (e_prepare w) (e_net w before msg) msg = Ok (r_request r, r_response r, r_time r, r_error r) /\
    Forall2 (fun e a => exists t l r', e = EBin t l r' /\ a_expr a = show_expr l ++ lit " " ++ tlit t ++ lit " " ++ show_expr r')
      (filter comparison_expr asserts) (r_asserts r) /\
    ~ In 10 (r_name r)) (c_recs (s_ctx s')).
Proof. exact source_records. Qed.
Print Assumptions C101_source.
Example C101_example : exists src v s', parse ask_twice = Ok src /\
  eval_block honest (s_exprs src) (St (ctx_extend ctx_new (s_requests src)) []) = (Ok v, s') /\
  c_reqs (ctx_extend ctx_new (s_requests src)) = s_requests src /\
  sent (s_trace s') = 2%nat /\ map r_name (c_recs (s_ctx s')) = [lit "r"; lit "r"] /\ map passed (c_recs (s_ctx s')) = [true; false].
Proof. exact history_example. Qed.

Theorem C101_names : forall text src, parse text = Ok src -> forall n,
  mget n (s_requests src) <> None \/ mget n (s_tests src) <> None ->
  exists c x, n = c :: x /\ letter c /\ Forall (fun y => letter y \/ digit y) x.
Proof. exact source_names. Qed.
Print Assumptions C101_names.
