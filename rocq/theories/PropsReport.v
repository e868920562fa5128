(** C100 *)
From Verif Require Import SpecReport EvalExamples ReportProofs ReportExamples.
Open Scope N_scope.

(** C100.  What the printed reports tell *)

Theorem C100_told : forall rs rs', Forall in_lines rs -> Forall in_lines rs' -> report_text rs = report_text rs' -> map gist rs = map gist rs'.
Proof. exact reports_told. Qed.
Print Assumptions C100_told.
Example C100_told_example : Forall in_lines (recs_of (script honest ask_twice)) /\ length (recs_of (script honest ask_twice)) = 2%nat.
Proof. exact reports_lined. Qed.

Theorem C100_verdict : forall r r', ~ In 10 (r_name r) -> ~ In 10 (r_name r') -> show_record r = show_record r' ->
  r_name r = r_name r' /\ (Forall (fun a => a_result a = true) (r_asserts r) <-> Forall (fun a => a_result a = true) (r_asserts r')) /\ t_total (r_time r) = t_total (r_time r').
Proof. exact report_verdict. Qed.
Print Assumptions C100_verdict.
Theorem C100_forged_refuted : exists w w' text text', report_text (recs_of (script w text)) = report_text (recs_of (script w' text')) /\
  map passed (recs_of (script w text)) = [false] /\ map passed (recs_of (script w' text')) = [true; false].
Proof. exact reports_forged. Qed.
Print Assumptions C100_forged_refuted.
Theorem C100_again : forall w text src n m es s as_ s', parse text = Ok src -> mget n (s_requests src) = Some (m, es) -> asserted w es s as_ s' ->
  Forall2 (fun e a => exists t l r s0, e = EBin t l r /\ reached_at w es s e s0 /\
    (no_let_operand e -> fractional e -> no_number_field e ->
     forall lv rv s2, in_order w [l; r] s0 [lv; rv] s2 -> line_done w (a_expr a) s0 (LPrinted (printing (if a_result a then lit "true" else lit "false") s2))))
    (filter comparison_expr es) as_.
Proof. exact report_again. Qed.
Print Assumptions C100_again.
Example C100_again_example : exists src m t l r, parse ask = Ok src /\ mget (lit "r") (s_requests src) = Some (m, [EBin t l r]) /\
  let e := EBin t l r in let s := St (Ctx [(lit "body", VStr (lit "ok"))] [] []) [] in
  no_let_operand e /\ fractional e /\ no_number_field e /\
  in_order online [l; r] s [VStr (lit "ok"); VStr (lit "ok")] s /\ exists as_ s', asserted online [e] s as_ s' /\ map a_expr as_ = [lit "body == ""ok"""].
Proof. exact again_example. Qed.

Theorem C100_unknown : forall w es s as_ s', asserted w es s as_ s' ->
  Forall2 (fun e a => exists t l r s0 lv rv s1 s2, e = EBin t l r /\ reached_at w es s e s0 /\ operand w l s0 lv s1 /\ operand w r s1 rv s2 /\
    ((exists er, eval_expr w l s0 = (Err er, s1)) -> (a_result a = true <-> tkind t = KEq /\ rv = VNull \/ tkind t = KNe /\ rv <> VNull)) /\
    ((exists er, eval_expr w r s1 = (Err er, s2)) -> (a_result a = true <-> tkind t = KEq /\ lv = VNull \/ tkind t = KNe /\ lv <> VNull)))
    (filter comparison_expr es) as_.
Proof. exact report_unknown. Qed.
Print Assumptions C100_unknown.
Example C100_unknown_example : map passed (recs_of (script online (lit "request r`GET http://h/`[statu != 200, f() == g()] r()"))) = [true] /\
  map (fun r => length (r_asserts r)) (recs_of (script online (lit "request r`GET http://h/`[statu != 200, f() == g()] r()"))) = [2%nat].
Proof. exact misspelt_passes. Qed.

