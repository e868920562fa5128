(** C05-C10 *)
From Verif Require Import Parser SpecSyntax ParserTop ParserFuel ParserTermination ParserProgram ParserExamples DisplayProofs SpinProofs.
Open Scope N_scope.

(** C05: parsing ends ... *)
Theorem C05_terminates : forall text, no_bang (segment text) ->
  (exists src, parse text = Ok src) \/ (exists e, parse text = Err e).
Proof. exact parse_finishes. Qed.
Print Assumptions C05_terminates.

(** ... the recursion (loop turns counted as calls) being at most linearly deep ... *)
Theorem C05_depth : forall text n, no_bang (segment text) -> (4 * length (segment text) + 5 <= n)%nat ->
  parse_fuel n (segment text) <> PFuel.
Proof. exact terminates. Qed.
Print Assumptions C05_depth.

(** ... and [Diverge] stands for never ending however much fuel there is *)
Theorem C05_diverge_meaning : forall text, parse text = Diverge <-> forall n, parse_fuel n (segment text) = PFuel.
Proof. exact parse_diverges. Qed.
Print Assumptions C05_diverge_meaning.

(** C05: a program that ends in an expression, followed by [!], is never parsed *)
Theorem C05_never_ends : forall text is e w rest,
  segment text = w ++ op KNot "!" :: rest -> program (is ++ [IExpr e]) w ->
  (forall u, w <> u ++ [op KSemi ";"]) ->
  (forall i e', In i (is ++ [IExpr e]) -> in_item e' i -> no_let_operand e' /\ prec_ok e') ->
  forall n, parse_fuel n (segment text) = PFuel.
Proof. exact never_ends. Qed.
Print Assumptions C05_never_ends.

(** C05: the cause of every endless parse is a [!] after an expression, and nothing after it matters *)
Theorem C05_cause : forall text, parse text = Diverge <->
  exists p q, segment text = p ++ op KNot "!" :: q /\ (exists y e w, p = y ++ w /\ syntax false e w) /\
    forall text' q', segment text' = p ++ op KNot "!" :: q' -> parse text' = Diverge.
Proof. exact endless_cause. Qed.
Print Assumptions C05_cause.

(** C05 with the weaker condition on [!] only: false *)
Theorem C05_bang_only_refuted : exists text,
  (forall a b, adjacent a b (segment text) -> tkind b = KNot -> ~ ends_operand (tkind a)) /\ parse text = Diverge.
Proof. exact bang_only. Qed.
Print Assumptions C05_bang_only_refuted.

Example C05_example : no_bang (segment (lit "let x = !a; test t { f(-1) != [!b]; }")).
Proof. apply no_bangb_ok. vm_compute. reflexivity. Qed.
Example C05_example2 : parse (lit "x = a!") <> Ok (Source [] [] []) /\ forall n, parse_fuel n (segment (lit "a!")) = PFuel.
Proof. split; [vm_compute; discriminate|]. apply C05_diverge_meaning. vm_compute. reflexivity. Qed.
Example C05_example3 : parse (lit "test t { f([1, a! ") = Diverge /\ parse (lit "test t { f([1, a ") <> Diverge.
Proof. split; [vm_compute; reflexivity|vm_compute; discriminate]. Qed.

(** C06 *)
Theorem C06_accounted : forall text src, parse text = Ok src -> exists is w,
  segment text = w ++ [Tok KEof []] /\ syntax_items is w /\
  s_exprs src = item_exprs is /\
  (forall n d, mget n (s_requests src) = Some d <-> last_def n (item_requests is) d) /\
  (forall n b, mget n (s_tests src) = Some b <-> last_def n (item_tests is) b).
Proof. exact accounted. Qed.
Print Assumptions C06_accounted.

Example C06_example : exists src, parse (lit "let a = [1, 2,]; request r `GET /` [a == 1] test t { r(); }") = Ok src /\
  length (s_exprs src) = 1%nat /\ mget (lit "r") (s_requests src) <> None /\ mget (lit "t") (s_tests src) <> None.
Proof. eexists. vm_compute. repeat split; discriminate. Qed.

(** C07 *)
Theorem C07_precedence : forall text src e, parse text = Ok src ->
  In e (s_exprs src) \/ (exists n m es, mget n (s_requests src) = Some (m, es) /\ In e es) \/
  (exists n b, mget n (s_tests src) = Some b /\ In e b) ->
  no_let_operand e -> prec_ok e.
Proof. exact precedence_respected. Qed.
Print Assumptions C07_precedence.

(** with a [let] as an operand it fails *)
Theorem C07_let_operand_refuted : exists text src e, parse text = Ok src /\ In e (s_exprs src) /\ ~ prec_ok e.
Proof. exact let_operand. Qed.
Print Assumptions C07_let_operand_refuted.

Example C07_example : exists src l r, parse (lit "-a + b * c || d.e[0]") = Ok src /\
  s_exprs src = [EBin (Tok KLo (lit "||")) l r] /\
  l = EBin (Tok KAdd (lit "+")) (EUn (Tok KSub (lit "-")) (EIdent (lit "a")))
        (EBin (Tok KMul (lit "*")) (EIdent (lit "b")) (EIdent (lit "c"))).
Proof. do 3 eexists. vm_compute. repeat split. Qed.

(** C08 *)
Theorem C08_parses : forall text is w, segment text = w ++ [Tok KEof []] -> program is w ->
  (forall i e, In i is -> in_item e i -> no_let_operand e /\ prec_ok e) ->
  exists src, parse text = Ok src /\ s_exprs src = item_exprs is /\
    (forall n d, mget n (s_requests src) = Some d <-> last_def n (item_requests is) d) /\
    (forall n b, mget n (s_tests src) = Some b <-> last_def n (item_tests is) b).
Proof. exact parses. Qed.
Print Assumptions C08_parses.

Example C08_example : exists is w, segment (lit "1 + x; test t { }") = w ++ [Tok KEof []] /\ program is w /\
  (forall i e, In i is -> in_item e i -> no_let_operand e /\ prec_ok e) /\ length is = 2%nat.
Proof. exact program_example. Qed.

(** C09 *)
Theorem C09_display : forall text src e, parse text = Ok src ->
  In e (s_exprs src) \/ (exists n m es, mget n (s_requests src) = Some (m, es) /\ In e es) \/
  (exists n b, mget n (s_tests src) = Some b /\ In e b) ->
  no_let_operand e -> fractional e -> no_number_field e ->
  exists src', parse (show_expr e) = Ok src' /\ s_exprs src' = [e] /\ s_requests src' = [] /\ s_tests src' = [].
Proof. exact display_round_trip. Qed.
Print Assumptions C09_display.

Example C09_example : exists src e, parse (lit "if (a == ""x"") { f(1 , -2,0.50)[ 0 ] } else { {""k"" : !b}; let c = d . e }") = Ok src /\
  s_exprs src = [e] /\ no_let_operand e /\ fractional e /\ no_number_field e /\
  show_expr e = lit "if (a == ""x"") { f(1, -2, 0.5)[0]} else { {""k"": !b};let c = d.e }".
Proof. exact display_example. Qed.

(** without the restrictions the displayed text need not mean the same *)
Theorem C09_float_refuted : exists e src, parse (lit "1.0") = Ok (Source [e] [] []) /\ parse (show_expr e) = Ok src /\ s_exprs src <> [e].
Proof. exact display_float. Qed.
Print Assumptions C09_float_refuted.
Theorem C09_float_field_refuted : exists e err, parse (lit "1.5 .f") = Ok (Source [e] [] []) /\ parse (show_expr e) = Err err.
Proof. exact display_float_field. Qed.
Print Assumptions C09_float_field_refuted.
Theorem C09_int_field_refuted : exists e src, parse (lit "1 .f") = Ok (Source [e] [] []) /\ parse (show_expr e) = Ok src /\ s_exprs src <> [e].
Proof. exact display_int_field. Qed.
Print Assumptions C09_int_field_refuted.
Theorem C09_let_operand_refuted : exists e src, parse (lit "1 + let x = 2; * 3") = Ok (Source [e] [] []) /\ parse (show_expr e) = Ok src /\ s_exprs src <> [e].
Proof. exact display_let_operand. Qed.
Print Assumptions C09_let_operand_refuted.

(** C10 *)
Theorem C10_collected : forall text src, parse text = Ok src -> exists is w,
  segment text = w ++ [Tok KEof []] /\ syntax_items is w /\
  s_exprs src = item_exprs is /\
  (forall n d, mget n (s_requests src) = Some d <-> last_def n (item_requests is) d) /\
  (forall n b, mget n (s_tests src) = Some b <-> last_def n (item_tests is) b) /\
  (forall n, mget n (s_requests src) = None <-> ~ In n (map fst (item_requests is))) /\
  (forall n, mget n (s_tests src) = None <-> ~ In n (map fst (item_tests is))) /\
  NoDup (map fst (s_requests src)) /\ NoDup (map fst (s_tests src)).
Proof. exact collected_all. Qed.
Print Assumptions C10_collected.

Example C10_example : exists src, parse (lit "test t { 1 } x; test t { 2 } y") = Ok src /\
  mget (lit "t") (s_tests src) = Some [EInt 2] /\ mget (lit "u") (s_tests src) = None /\
  s_exprs src = [EIdent (lit "x"); EIdent (lit "y")].
Proof. eexists. vm_compute. repeat split. Qed.
