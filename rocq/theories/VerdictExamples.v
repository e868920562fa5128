(** Verdicts of a concrete run. *)
From Verif Require Import TextProofs JsonProofs FloatLiteral EvalExamples ReportExamples AssertProofs AssertExamples VerdictProofs SpecVerdict ProcessExamples.
Open Scope N_scope.

Definition stock_text : str := lit "request good`GET http://h/`[json.items[1].name != ""c"", status == 200] request bad`GET http://h/`[status == 200, json.items[2] == 7] test t { good(); bad() }".
Definition stock_setting : setting := Setting true (lit "out") (fun _ => true) (fun _ => []) (fun _ => shelf) (fun l => l) false.
Definition stock_end : process := play stock_setting ([Onward; Onward; Onward] ++ taking_turns 20) (launch (fun l => l) shelf (at_file stock_text) (Some (lit "t")) 2 None 4 false [] []).
Definition stock_response : response := Response (lit "HTTP/1.1") 200 (lit "OK") [] shelf_text.
Definition equal : token := Tok KEq (lit "==").
Definition unequal : token := Tok KNe (lit "!=").
Definition good_asserts : list expr :=
  [EBin unequal (place (lit "json") [Field (lit "items"); SpecAssert.Nth 1; Field (lit "name")]) (EStr (lit "c")); EBin equal (place (lit "status") []) (EInt 200)].
Definition bad_asserts : list expr :=
  [EBin equal (place (lit "status") []) (EInt 200); EBin equal (place (lit "json") [Field (lit "items"); SpecAssert.Nth 2]) (EInt 7)].
Definition verdicts (es : list event) : list str := flat_map (fun ev => match ev with Printed t => [t] | Sent _ => [] end) es.

Definition good_report : str := lit "=== TEST  good" ++ [10] ++ lit "json.items[1].name != ""c"" => b != c => true" ++ [10] ++ lit "status == 200 => 200 == 200 => true" ++ [10] ++ lit "--- PASS  good (10ns)" ++ [10].
Definition bad_report : str := lit "=== TEST  bad" ++ [10] ++ lit "status == 200 => 200 == 200 => true" ++ [10] ++ lit "json.items[2] == 7 => null == 7 => false" ++ [10] ++ lit "--- FAIL  bad (10ns)" ++ [10].

Lemma stock_run : (exists src s1 body m1 m2, loads shelf (at_file stock_text) src s1 /\ mget (lit "t") (s_tests src) = Some body /\
    mget (lit "good") (s_requests src) = Some (m1, good_asserts) /\ mget (lit "bad") (s_requests src) = Some (m2, bad_asserts)) /\
  goes stock_setting (launch (fun l => l) shelf (at_file stock_text) (Some (lit "t")) 2 None 4 false [] []) stock_end /\ p_main stock_end = Gone true /\
  verdicts (events_of (Tester 1) (p_log stock_end)) = [good_report; bad_report; good_report; bad_report].
Proof.
  split; [|split; [apply play_goes|split; vm_compute; reflexivity]].
  destruct (parse stock_text) as [src| | |] eqn:P; [|vm_compute in P; discriminate..].
  destruct (eval_block shelf (s_exprs src) (St (Ctx [] (mextend [] (s_requests src)) []) [])) as [[v|e| |] s1] eqn:E; [|vm_compute in P; injection P as <-; vm_compute in E; discriminate..].
  destruct (mget (lit "t") (s_tests src)) as [body|] eqn:M; [|vm_compute in P; injection P as <-; vm_compute in M; discriminate].
  exists src, s1, body, (lit "GET http://h/"), (lit "GET http://h/"). split; [exists stock_text, v; split; [vm_compute; reflexivity|auto]|]. split; auto.
  vm_compute in P. injection P as <-. split; vm_compute; reflexivity.
Qed.
Lemma stock_checked : Forall (checkable stock_response) good_asserts /\ Forall (checkable stock_response) bad_asserts /\
  Forall (true_of stock_response) good_asserts /\ ~ Forall (true_of stock_response) bad_asserts.
Proof.
  destruct shelf_document as (d & J & L1 & _ & _ & L2). assert (JB : documented stock_response) by (left; exists d; exact J).
  assert (A : forall t root ps l, literal l -> In (tkind t) comparison_kinds -> about stock_response (EBin t (place root ps) l) t root ps l).
  { intros t root ps l H K. split; [reflexivity|]. split; auto. }
  assert (C : forall t root ps l, literal l -> In (tkind t) comparison_kinds -> checkable stock_response (EBin t (place root ps) l)).
  { intros t root ps l H K. exists t, root, ps, l. auto. }
  assert (S : literal (EStr (lit "c"))) by (constructor; repeat constructor).
  assert (Cg : Forall (checkable stock_response) good_asserts).
  { apply Forall_cons; [|apply Forall_cons; [|apply Forall_nil]]; apply C; try exact S; try apply li_int; cbn; tauto. }
  assert (Cb : Forall (checkable stock_response) bad_asserts).
  { apply Forall_cons; [|apply Forall_cons; [|apply Forall_nil]]; apply C; try apply li_int; cbn; tauto. }
  split; [exact Cg|]. split; [exact Cb|].
  pose (st0 := St (Ctx [] [(lit "good", (lit "GET http://h/", good_asserts)); (lit "bad", (lit "GET http://h/", bad_asserts))] []) []).
  pose (es := [ECall (lit "good") []; ECall (lit "bad") []]).
  destruct (eval_block shelf es st0) as [o s'] eqn:E.
  assert (V : match c_recs (s_ctx s') with [g; b] => r_name g = lit "good" /\ r_name b = lit "bad" /\ r_response g = stock_response /\ r_response b = stock_response /\
    map a_result (r_asserts g) = [true; true] /\ map a_result (r_asserts b) = [true; false] | _ => False end).
  { replace s' with (snd (eval_block shelf es st0)) by now rewrite E. vm_compute. auto 10. }
  pose proof (assertions_run _ _ _ _ _ E eq_refl) as R. destruct (c_recs (s_ctx s')) as [|g [|b [|]]]; try contradiction. destruct V as (Ng & Nb & Rg & Rb & Ag & Ab).
  destruct (R g (or_introl eq_refl)) as (t1 & as1 & G1 & F1). destruct (R b (or_intror (or_introl eq_refl))) as (t2 & as2 & G2 & F2).
  rewrite Ng in G1. rewrite Nb in G2. assert (as1 = good_asserts) by (vm_compute in G1; injection G1 as <- <-; reflexivity). assert (as2 = bad_asserts) by (vm_compute in G2; injection G2 as <- <-; reflexivity). subst as1 as2. rewrite Rg in F1. rewrite Rb in F2.
  assert (Lg : forall e, In e good_asserts -> let_names e = []) by (intros e I; exact (proj1 (checkable_lets _ _ (proj1 (Forall_forall _ _) Cg e I)))).
  assert (Lb : forall e, In e bad_asserts -> let_names e = []) by (intros e I; exact (proj1 (checkable_lets _ _ (proj1 (Forall_forall _ _) Cb e I)))).
  specialize (F1 Lg). specialize (F2 Lb). change (filter comparison_expr good_asserts) with good_asserts in F1. change (filter comparison_expr bad_asserts) with bad_asserts in F2.
  apply results_true in F1; auto. apply results_true in F2; auto. split.
  - apply F1. intros a I. apply (in_map a_result) in I. rewrite Ag in I. cbn in I. intuition congruence.
  - intros X. rewrite <- F2 in X. destruct (r_asserts b) as [|a1 [|a2 [|]]]; try discriminate Ab. injection Ab as _ Ab. rewrite X in Ab; [discriminate|right; now left].
Qed.
