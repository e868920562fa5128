(** C121 *)
From Verif Require Import EvalExamples LayoutProofs SpecSyntax SpecLayout.
Open Scope N_scope.

(** C121.  Texts that differ in blanks only *)

Theorem C121_tokens : forall a b, relaid a b -> forall ts, lexes a ts <-> lexes b ts.
Proof. exact relaid_tokens. Qed.
Print Assumptions C121_tokens.
Theorem C121_parse : forall a b, relaid a b -> parse a = parse b.
Proof. exact relaid_parse. Qed.
Print Assumptions C121_parse.
Theorem C121_line : forall w a b s r, relaid a b -> line_done w a s r -> line_done w b s r.
Proof. exact relaid_line. Qed.
Print Assumptions C121_line.
Theorem C121_session : forall w ls ls' s s', Forall2 (fun x y => match x, y with Some a, Some b => relaid a b /\ a <> lit "exit" /\ b <> lit "exit" | None, None => True | _, _ => False end) ls ls' ->
  session w ls s s' -> session w ls' s s'.
Proof. exact relaid_session. Qed.
Print Assumptions C121_session.
Theorem C121_suite : forall iter w root root' a b name threads duration number record pod d, relaid a b -> read_node (fst root) (snd root) = Some a -> read_node (fst root') (snd root') = Some b ->
  launch iter w root name threads duration number record pod d = launch iter w root' name threads duration number record pod d.
Proof. exact relaid_suite. Qed.
Print Assumptions C121_suite.
Theorem C121_program : forall checks o a b, relaid a b -> whole_program checks o [lit "eval"; lit "--"; a] = whole_program checks o [lit "eval"; lit "--"; b].
Proof. exact relaid_program. Qed.
Print Assumptions C121_program.
Theorem C121_elsewhere_refuted : exists u g v u' g' v' w,
  ~ closed u /\ blank g /\ parse (u ++ g ++ v) <> parse (u ++ g ++ g ++ v) /\
  closed u' /\ blank g' /\ parse (u' ++ g' ++ v') <> parse (u' ++ v') /\
  blank w /\ (forall s s', ~ session online [Some (lit "exit")] s s') /\ (exists s s', session online [Some (w ++ lit "exit")] s s').
Proof. exact layout_matters. Qed.
Print Assumptions C121_elsewhere_refuted.
Example C121_example : relaid (lit "test t{let r=get();}") (lit "test t { let " ++ [10] ++ lit " r=get (); }" ++ [10]).
Proof. exact layout_example. Qed.

