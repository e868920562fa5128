(** A test with and without a variable that nothing reads. *)
From Verif Require Import TextProofs EvalExamples ReportExamples ValueExamples PrintsExamples ChainExamples BranchExamples WholeExamples TallyExamples PaceExamples FixedExamples AddedExamples TemplateProofs RefactorExamples LiveExamples ReplaceProofs SpecProcess SpecReplace ProcessExamples.
Open Scope N_scope.

Definition with_unused : str := lit "let x = 0; request r `GET http://h/`[status == 200] test t { let x = 1; let a = r(); println(a.body) } test u { r() }".
Definition without_unused : str := lit "request r `GET http://h/`[status == 200] test t { let a = r(); println(a.body) } test u { r() }".
Definition replace_launch (t : str) (n : option str) : process := launch (@rev _) counting (at_file t) n 1 None 2 true (lit "pod") [].
Definition replace_finish (t : str) (n : option str) : process := play counting_setting ([Onward; Onward; Onward] ++ taking_turns 20) (replace_launch t n).
Definition unused_x : expr := ELet (lit "x") (EInt 1).
Lemma replace_example : exists src src',
  read_node (fst (at_file with_unused)) (snd (at_file with_unused)) = Some with_unused /\ parse with_unused = Ok src /\
  read_node (fst (at_file without_unused)) (snd (at_file without_unused)) = Some without_unused /\ parse without_unused = Ok src' /\
  bodies_replaced (g_world counting_setting) counting (same_off [lit "x"]) src src' /\ src <> src' /\
  tests_serve (g_world counting_setting) (mextend [] (s_requests src)) (same_off [lit "x"]) (rev (s_tests src)) (rev (s_tests src')) /\
  goes counting_setting (replace_launch with_unused (Some (lit "t"))) (replace_finish with_unused (Some (lit "t"))) /\ p_main (replace_finish with_unused (Some (lit "t"))) = Gone true /\
  length (p_log (replace_finish with_unused (Some (lit "t")))) = 7%nat /\
  goes counting_setting (replace_launch with_unused None) (replace_finish with_unused None) /\ p_main (replace_finish with_unused None) = Gone true.
Proof.
  do 2 eexists. split; [vm_compute; reflexivity|]. split; [vm_compute; reflexivity|]. split; [vm_compute; reflexivity|]. split; [vm_compute; reflexivity|].
  match goal with |- bodies_replaced _ _ _ ?a ?b /\ _ => set (src := a); set (src' := b) end.
  set (reqs := mextend [] (s_requests src)).
  assert (Nr : forall e n, In e (flat_map snd (s_tests src')) -> In n [lit "x"] -> ~ SpecReads.reads reqs e n).
  { intros e n I J Rd. destruct J as [<-|[]]. destruct Rd as [Rd|(r & template & asserts & ps & Ic & Mg & Sc & Ih)].
    - cbn in I. repeat destruct I as [<-|I]; try contradiction; vm_compute in Rd; repeat destruct Rd as [Rd|Rd]; try discriminate; try contradiction.
    - rewrite (holes_are _ _ Sc) in Ih. unfold reqs, src in Mg. cbn [mextend s_requests fold_left mset mget fst snd] in Mg. destruct (str_eqb r _) in Mg; [|discriminate Mg]. injection Mg as <- <-. vm_compute in Ih. exact Ih. }
  assert (Tt : tests_serve (g_world counting_setting) reqs (same_off [lit "x"]) (s_tests src) (s_tests src')).
  { constructor; [|constructor; [|constructor]]; (split; [reflexivity|intros id]).
    - cbn [snd]. apply (unused_serves _ _ unused_x); [discriminate|reflexivity|intros s; exists (VInt 1), (upd (fun c => ctx_set c (lit "x") (VInt 1)) s); reflexivity|]. intros e n I J. apply Nr; [|exact J]. cbn [s_tests src' flat_map snd]. apply in_or_app. now left.
    - cbn [snd]. apply reads_serve. intros e n I J. apply Nr; [|exact J]. cbn [s_tests src' flat_map snd]. apply in_or_app. right. apply in_or_app. now left. }
  split; [split; [reflexivity|split; [|exact Tt]]|].
  { intros recs tr o s1 o' s1' E E'. cbn [s_exprs src src'] in E, E'. injection E as <- <-. injection E' as <- <-. split; [exact I|]. split; [reflexivity|]. split; [reflexivity|]. intros _ n N. symmetry.
    unfold upd. cbn [s_ctx c_vars]. apply mget_mset_other. intros ->. apply N. now left. }
  split; [discriminate|].
  split. { inversion Tt as [|? ? ? ? A B]; subst. inversion B as [|? ? ? ? C D]; subst. constructor; [exact C|constructor; [exact A|constructor]]. }
  split; [unfold replace_finish; apply play_goes|]. split; [vm_compute; reflexivity|]. split; [vm_compute; reflexivity|]. split; [unfold replace_finish; apply play_goes|]. vm_compute. reflexivity.
Qed.
Definition asks : expr := ELet (lit "a") (ECall (lit "get") []).
Lemma swap_example : called unused_x = [] /\ (forall w s, exists v s1, eval_expr w unused_x s = (Ok v, s1)) /\ independent fetch unused_x asks /\ called asks <> [].
Proof.
  split; [reflexivity|]. split; [intros w s; exists (VInt 1), (upd (fun c => ctx_set c (lit "x") (VInt 1)) s); reflexivity|]. split; [|discriminate].
  split; intros n J; cbn in J; destruct J as [<-|[]]; (split; [|cbn; intros [J|[]]; discriminate J]).
  - intros [J|(r & template & asserts & ps & Ic & Mg & Sc & Ih)]; [destruct J|]. rewrite (holes_are _ _ Sc) in Ih. unfold fetch in Mg. cbn [mget] in Mg. destruct (str_eqb r (lit "get")) in Mg; [|discriminate Mg]. injection Mg as <- <-. vm_compute in Ih. destruct Ih as [Ih|[]]. discriminate Ih.
  - intros [J|(r & template & asserts & ps & Ic & _)]; [destruct J|destruct Ic].
Qed.
