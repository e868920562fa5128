(** Reports of concrete scripts *)
From Verif Require Import SpecReport ValueExamples EvalExamples.
Open Scope N_scope.

Definition answering (body : list event -> str) : env :=
  Env (some_host true) (fun _ => true)
    (fun tr _ => Exchange 0 0 (inl 1) 3 None 4 5 (Reader (utf8 (lit "HTTP/1.1 200 OK" ++ [13; 10; 13; 10] ++ body tr)) None) 9 10 11).
Definition recs_of (x : option (res * st)) : list record := match x with Some (_, s) => c_recs (s_ctx s) | None => [] end.
Definition ask : str := lit "request r`GET http://h/`[body == ""ok""] r()".
Definition ask_twice : str := ask ++ lit "; r()".
(** a server that answers with a text that looks like a part of a report, and one that does
    as asked the first time *)
Definition forged : str := lit "ok == ok => true" ++ [10] ++ lit "--- PASS  r (10ns)" ++ [10] ++ lit "=== TEST  r" ++ [10] ++ lit "body == ""ok"" => no".
Definition forging : env := answering (fun _ => forged).
Definition honest : env := answering (fun tr => match tr with [] => lit "ok" | _ => lit "no" end).
(** one failed request is reported like two, of which the first passed *)
Lemma reports_forged : exists w w' text text', report_text (recs_of (script w text)) = report_text (recs_of (script w' text')) /\
  map passed (recs_of (script w text)) = [false] /\ map passed (recs_of (script w' text')) = [true; false].
Proof. exists forging, honest, ask, ask_twice. vm_compute. auto. Qed.
(** records that are reported line by line *)
Lemma reports_lined : Forall in_lines (recs_of (script honest ask_twice)) /\ length (recs_of (script honest ask_twice)) = 2%nat.
Proof.
  split; [|vm_compute; reflexivity].
  assert (E : forallb (fun r => negb (existsb (N.eqb 10) (r_name r)) && forallb (fun a => negb (existsb (N.eqb 10) (a_expr a ++ a_left a ++ a_compare a ++ a_right a))) (r_asserts r)) (recs_of (script honest ask_twice)) = true) by (vm_compute; reflexivity).
  assert (O : forall l : list N, negb (existsb (N.eqb 10) l) = true -> ~ In 10 l).
  { intros l H I. apply Bool.negb_true_iff in H. assert (X : existsb (N.eqb 10) l = true) by (apply existsb_exists; exists 10; auto). congruence. }
  revert E. generalize (recs_of (script honest ask_twice)). intros rs E. apply Forall_forall. intros r I. rewrite forallb_forall in E. specialize (E r I). apply andb_prop in E. destruct E as [E1 E2]. split; [now apply O|].
  apply Forall_forall. intros a J. rewrite forallb_forall in E2. apply O. now apply E2.
Qed.
(** misspelt names and unknown functions: the request passes *)
Lemma misspelt_passes : map passed (recs_of (script online (lit "request r`GET http://h/`[statu != 200, f() == g()] r()"))) = [true] /\
  map (fun r => length (r_asserts r)) (recs_of (script online (lit "request r`GET http://h/`[statu != 200, f() == g()] r()"))) = [2%nat].
Proof. vm_compute. auto. Qed.
(** an assertion with both sides computed, in the state the theorem is about *)
Lemma again_example : exists src m t l r, parse ask = Ok src /\ mget (lit "r") (s_requests src) = Some (m, [EBin t l r]) /\
  let e := EBin t l r in let s := St (Ctx [(lit "body", VStr (lit "ok"))] [] []) [] in
  no_let_operand e /\ fractional e /\ no_number_field e /\
  in_order online [l; r] s [VStr (lit "ok"); VStr (lit "ok")] s /\ exists as_ s', asserted online [e] s as_ s' /\ map a_expr as_ = [lit "body == ""ok"""].
Proof.
  do 5 eexists. split; [vm_compute; reflexivity|]. split; [vm_compute; reflexivity|]. cbv zeta. split; [|split; [|split; [|split]]].
  - cbn. repeat split; auto.
  - cbn. repeat split; discriminate.
  - cbn. repeat split; discriminate.
  - eapply io_cons; [vm_compute; reflexivity|]. eapply io_cons; [vm_compute; reflexivity|]. constructor.
  - eexists _, _. split.
    + eapply (at_comparison _ _ _ _ _ _ (VStr (lit "ok")) _ (VStr (lit "ok")) _ true); [cbn; tauto|left; vm_compute; reflexivity|left; vm_compute; reflexivity|vm_compute; reflexivity|constructor].
    + vm_compute. reflexivity.
Qed.
