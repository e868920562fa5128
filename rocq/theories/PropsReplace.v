(** C146 *)
From Verif Require Import EvalExamples PrintsExamples WholeExamples TallyExamples AddedExamples LiveExamples ReplaceProofs ReplaceExamples SpecProcess SpecReplace ProcessExamples.
Open Scope N_scope.

(** C146.  A body that does the same can take the place of another in every run *)

Theorem C146_run : forall g (R : amap value -> amap value -> Prop) iter iter' w root root' text text' src src' name threads duration number record pod d p, read_node (fst root) (snd root) = Some text -> parse text = Ok src -> read_node (fst root') (snd root') = Some text' -> parse text' = Ok src' -> bodies_replaced (g_world g) w R src src' ->
  (name = None -> tests_serve (g_world g) (mextend [] (s_requests src)) R (iter (s_tests src)) (iter' (s_tests src'))) ->
  goes g (launch iter w root name threads duration number record pod d) p ->
  exists p', goes g (launch iter' w root' name threads duration number record pod d) p' /\
    same_stage (p_main p) (p_main p') /\ p_flag p' = p_flag p /\ p_log p' = p_log p /\ p_disk p' = p_disk p.
Proof. exact replace_run. Qed.
Print Assumptions C146_run.
Theorem C146_back : forall g (R : amap value -> amap value -> Prop) iter iter' w root root' text text' src src' name threads duration number record pod d p', read_node (fst root) (snd root) = Some text -> parse text = Ok src -> read_node (fst root') (snd root') = Some text' -> parse text' = Ok src' -> bodies_replaced (g_world g) w R src src' ->
  (name = None -> tests_serve (g_world g) (mextend [] (s_requests src)) R (iter (s_tests src)) (iter' (s_tests src'))) ->
  goes g (launch iter' w root' name threads duration number record pod d) p' ->
  exists p, goes g (launch iter w root name threads duration number record pod d) p /\
    same_stage (p_main p) (p_main p') /\ p_flag p' = p_flag p /\ p_log p' = p_log p /\ p_disk p' = p_disk p.
Proof. exact replace_back. Qed.
Print Assumptions C146_back.
Theorem C146_itself : forall w reqs b, serves_as w reqs eq b b.
Proof. exact serves_self. Qed.
Print Assumptions C146_itself.
Theorem C146_unchanged : forall w reqs (R : amap value -> amap value -> Prop) b v, (forall x, R x x) -> serves_from w reqs R b b v v.
Proof. exact from_self. Qed.
Print Assumptions C146_unchanged.
Theorem C146_unread : forall w reqs ns b, (forall e n, In e b -> In n ns -> ~ SpecReads.reads reqs e n) -> serves_as w reqs (same_off ns) b b.
Proof. exact reads_serve. Qed.
Print Assumptions C146_unread.
Theorem C146_unused : forall w reqs a es, es <> [] -> called a = [] -> (forall s, exists v s1, eval_expr w a s = (Ok v, s1)) ->
  (forall e n, In e es -> In n (let_names a) -> ~ SpecReads.reads reqs e n) ->
  serves_as w reqs (same_off (let_names a)) (a :: es) es.
Proof. exact unused_serves. Qed.
Print Assumptions C146_unused.
Theorem C146_steps : forall w reqs R1 R2 a b c, serves_as w reqs R1 a b -> serves_as w reqs R2 b c -> serves_as w reqs (fun x z => exists y, R1 x y /\ R2 y z) a c.
Proof. exact serves_trans. Qed.
Print Assumptions C146_steps.
Theorem C146_parts : forall w reqs R a a' b b', b <> [] -> b' <> [] -> serves_as w reqs R a a' -> serves_as w reqs R b b' -> serves_as w reqs R (a ++ b) (a' ++ b').
Proof. exact serves_parts. Qed.
Print Assumptions C146_parts.
Theorem C146_swap : forall w reqs es1 a b es2, called a = [] -> (forall s, exists v s1, eval_expr w a s = (Ok v, s1)) -> independent reqs a b ->
  serves_as w reqs (same_off []) (es1 ++ a :: b :: es2) (es1 ++ b :: a :: es2) /\ serves_as w reqs (same_off []) (es1 ++ b :: a :: es2) (es1 ++ a :: b :: es2).
Proof. exact swap_serves. Qed.
Print Assumptions C146_swap.
Example C146_example : exists src src',
  read_node (fst (at_file with_unused)) (snd (at_file with_unused)) = Some with_unused /\ parse with_unused = Ok src /\
  read_node (fst (at_file without_unused)) (snd (at_file without_unused)) = Some without_unused /\ parse without_unused = Ok src' /\
  bodies_replaced (g_world counting_setting) counting (same_off [lit "x"]) src src' /\ src <> src' /\
  tests_serve (g_world counting_setting) (mextend [] (s_requests src)) (same_off [lit "x"]) (rev (s_tests src)) (rev (s_tests src')) /\
  goes counting_setting (replace_launch with_unused (Some (lit "t"))) (replace_finish with_unused (Some (lit "t"))) /\ p_main (replace_finish with_unused (Some (lit "t"))) = Gone true /\
  length (p_log (replace_finish with_unused (Some (lit "t")))) = 7%nat /\
  goes counting_setting (replace_launch with_unused None) (replace_finish with_unused None) /\ p_main (replace_finish with_unused None) = Gone true.
Proof. exact replace_example. Qed.

Example C146_swap_example : called unused_x = [] /\ (forall w s, exists v s1, eval_expr w unused_x s = (Ok v, s1)) /\ independent fetch unused_x asks /\ called asks <> [].
Proof. exact swap_example. Qed.

