(** Concrete sources *)
From Verif Require Import Parser SpecSyntax TextProofs ParserBase ParserSound ParserTop ParserFuel ParserTermination ParserProgram.
Open Scope N_scope.

Lemma bang_only : exists text,
  (forall a b, adjacent a b (segment text) -> tkind b = KNot -> ~ ends_operand (tkind a)) /\ parse text = Diverge.
Proof.
  exists (lit "a + let x = 1; !b"). split; [|vm_compute; reflexivity].
  intros a b (u & v & E) K. change (segment (lit "a + let x = 1; !b")) with
    [Tok KIdent (lit "a"); op KAdd "+"; op KLet "let"; Tok KIdent (lit "x"); op KAssign "="; Tok KInteger (lit "1");
     op KSemi ";"; op KNot "!"; Tok KIdent (lit "b"); Tok KEof []] in E.
  do 9 (destruct u as [|? u]; [inversion E; subst; first [discriminate K | intros H; unfold ends_operand in H; simpl in H; repeat destruct H as [H|H]; (discriminate H || contradiction)]|apply (f_equal (@tl token)) in E; cbn [tl app] in E]).
  destruct u as [|? u]; inversion E. destruct u; discriminate.
Qed.

Lemma let_operand : exists text src e, parse text = Ok src /\ In e (s_exprs src) /\ ~ prec_ok e.
Proof.
  exists (lit "1 + let x = 2; * 3"). do 2 eexists. split; [vm_compute; reflexivity|]. split; [left; reflexivity|].
  intros P. apply everywhere_eq in P. destruct P as [(_ & P & _) _].
  apply (P _ _ _ eq_refl). cbn [tkind]. apply looser_iff. repeat split.
Qed.

Lemma program_example : exists is w, segment (lit "1 + x; test t { }") = w ++ [Tok KEof []] /\ program is w /\
  (forall i e, In i is -> in_item e i -> no_let_operand e /\ prec_ok e) /\ length is = 2%nat.
Proof.
  exists [IExpr (EBin (op KAdd "+") (EInt 1) (EIdent (lit "x"))); ITest (lit "t") []].
  exists (([Tok KInteger (lit "1")] ++ op KAdd "+" :: [Tok KIdent (lit "x")]) ++ op KSemi ";" ::
          op KTest "test" :: Tok KIdent (lit "t") :: op KLb "{" :: [] ++ [op KRb "}"]).
  split; [vm_compute; reflexivity|]. split.
  - apply pg_semi.
    + constructor. apply sx_bin; [apply binary_iff; reflexivity| |constructor].
      change 1%Z with (Z.of_N (decimal (lit "1"))). constructor; [discriminate| |reflexivity].
      constructor; [split; discriminate|constructor].
    + apply pg_last. constructor. constructor.
  - split; [|reflexivity]. intros i e [<-|[<-|[]]]; cbn [in_item]; [intros ->|intros []].
    split; (apply everywhere_eq; split; [|split; (apply everywhere_eq; split; cbn; auto)]); [cbn; tauto|].
    split; [cbn; tauto|]. split; intros; discriminate.
Qed.

Lemma display_example : exists src e, parse (lit "if (a == ""x"") { f(1 , -2,0.50)[ 0 ] } else { {""k"" : !b}; let c = d . e }") = Ok src /\
  s_exprs src = [e] /\ no_let_operand e /\ fractional e /\ no_number_field e /\
  show_expr e = lit "if (a == ""x"") { f(1, -2, 0.5)[0]} else { {""k"": !b};let c = d.e }".
Proof.
  do 2 eexists. split; [vm_compute; reflexivity|]. split; [reflexivity|].
  split; [cbn; tauto|]. split; [|split; [cbn; repeat split; discriminate|vm_compute; reflexivity]].
  cbn. repeat split; try discriminate. intros f E. injection E as <-. eexists.
  split; [reflexivity|]. intros z E. unfold QArith_base.Qeq in E. cbn in E. lia.
Qed.
Lemma display_float : exists e src, parse (lit "1.0") = Ok (Source [e] [] []) /\ parse (show_expr e) = Ok src /\ s_exprs src <> [e].
Proof. do 2 eexists. split; [vm_compute; reflexivity|]. split; [vm_compute; reflexivity|]. discriminate. Qed.
Lemma display_float_field : exists e err, parse (lit "1.5 .f") = Ok (Source [e] [] []) /\ parse (show_expr e) = Err err.
Proof. do 2 eexists. split; [vm_compute; reflexivity|]. vm_compute. reflexivity. Qed.
Lemma display_int_field : exists e src, parse (lit "1 .f") = Ok (Source [e] [] []) /\ parse (show_expr e) = Ok src /\ s_exprs src <> [e].
Proof. do 2 eexists. split; [vm_compute; reflexivity|]. split; [vm_compute; reflexivity|]. discriminate. Qed.
Lemma display_let_operand : exists e src, parse (lit "1 + let x = 2; * 3") = Ok (Source [e] [] []) /\ parse (show_expr e) = Ok src /\ s_exprs src <> [e].
Proof. do 2 eexists. split; [vm_compute; reflexivity|]. split; [vm_compute; reflexivity|]. discriminate. Qed.

Lemma collected_all text src : parse text = Ok src -> exists is w,
  segment text = w ++ [Tok KEof []] /\ syntax_items is w /\
  s_exprs src = item_exprs is /\
  (forall n d, mget n (s_requests src) = Some d <-> last_def n (item_requests is) d) /\
  (forall n b, mget n (s_tests src) = Some b <-> last_def n (item_tests is) b) /\
  (forall n, mget n (s_requests src) = None <-> ~ In n (map fst (item_requests is))) /\
  (forall n, mget n (s_tests src) = None <-> ~ In n (map fst (item_tests is))) /\
  NoDup (map fst (s_requests src)) /\ NoDup (map fst (s_tests src)).
Proof.
  intros H. destruct (parse_shape _ _ H) as (is & w & S & Si & -> & _). exists is, w.
  rewrite collect_exprs, collect_requests, collect_tests. repeat split; auto; try apply mextend_none; try apply mextend_last.
  - apply mextend_nodup. constructor.
  - apply mextend_nodup. constructor.
Qed.
