(** Concrete cases for C85 *)
From Verif Require Import SpecDoom TemplateProofs ValueExamples EvalExamples EvaluatorTop NewExamples DoomProofs.
Open Scope N_scope.

Lemma steady_online : steady online.
Proof. exact (proj1 safe_example). Qed.
Lemma doom_division : steady online /\
  let e := EIf (EIdent (lit "a")) [EBin (op KDiv "/") (EInt 10) (EBin (op KSub "-") (EIdent (lit "a")) (EInt 1))] [] in
  let d := EBin (op KDiv "/") (EInt 10) (EBin (op KSub "-") (EIdent (lit "a")) (EInt 1)) in
  let s := St (Ctx [(lit "a", VInt 1)] [] []) [] in
  comes_to online e s d s /\ doomed online d s Panic s /\ eval_expr online e s = (Panic, s).
Proof.
  split; [exact steady_online|]. cbv zeta. split; [|split].
  - eapply (ct_then online (EIdent (lit "a")) _ [] [] _ []); [reflexivity|intros [?|?]; discriminate|reflexivity|constructor|constructor].
  - eapply dm_binary; [repeat econstructor|]. left. split; auto.
  - vm_compute. reflexivity.
Qed.
Definition get_state (asserts : list expr) : st := St (Ctx [] [(lit "get", (lit "GET http://h/", asserts))] []) [].
Lemma get_message w asserts : message_of w (s_ctx (get_state asserts)) (lit "GET http://h/") (lit "GET http://h/").
Proof. pose proof (message_substitute w (s_ctx (get_state asserts)) (lit "GET http://h/")) as M. exact M. Qed.
Lemma doom_body : steady loud /\ doomed loud (ECall (lit "get") []) (get_state []) Diverge (St (s_ctx (get_state [])) [Sent (lit "GET http://h/")]) /\
  eval_expr loud (ECall (lit "get") []) (get_state []) = (Diverge, St (s_ctx (get_state [])) [Sent (lit "GET http://h/")]).
Proof.
  split; [exact (proj1 loud_loops)|]. split.
  - refine (dm_body loud (lit "get") [] (get_state []) [] (get_state []) (lit "GET http://h/") [] (lit "GET http://h/") _ _ _ (get_message loud []) _ _);
      [constructor|reflexivity| |].
    + split; [eexists; reflexivity|]. split; [reflexivity|]. vm_compute. reflexivity.
    + vm_compute. reflexivity.
  - vm_compute. reflexivity.
Qed.
Lemma doom_assert : let e := EBin (op KRem "%") (EIdent (lit "status")) (EInt 0) in
  let s := get_state [EBin (op KEq "==") (EIdent (lit "nope")) (EParen e)] in
  exists s', doomed online (ECall (lit "get") []) s Panic s' /\ eval_expr online (ECall (lit "get") []) s = (Panic, s').
Proof.
  cbv zeta. eexists. split.
  - refine (dm_assert online (lit "get") [] _ [] _ (lit "GET http://h/") _ (lit "GET http://h/") _ _ _ _ _ [EIdent (lit "nope")] _ [] _ _ _ Panic _ _ _ (get_message online _) _ _ _ _ _ _).
    + constructor.
    + reflexivity.
    + vm_compute. reflexivity.
    + vm_compute. reflexivity.
    + reflexivity.
    + econstructor; [vm_compute; reflexivity|exact I|constructor].
    + eapply ct_part with (a := []); [reflexivity|constructor|constructor].
    + eapply dm_binary; [|left; split; [right; reflexivity|left; reflexivity]]. econstructor; [vm_compute; reflexivity|]. econstructor; [reflexivity|constructor].
  - vm_compute. reflexivity.
Qed.
