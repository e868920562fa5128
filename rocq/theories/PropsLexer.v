(** C01-C04 *)
From Verif Require Import Lexer SpecLex LexerProofs.
Open Scope N_scope.

(** C01: one end marker, at the end, and no character is lost *)
Theorem C01_lossless : forall s, exists ts,
  segment s = ts ++ [Tok KEof []] /\ Forall (fun t => tkind t <> KEof) ts /\ laid_out ts s.
Proof. exact lossless. Qed.
Print Assumptions C01_lossless.

Example C01_example : segment (lit "a<= ""b c") = [Tok KIdent (lit "a"); Tok KLe (lit "<="); Tok KString (lit "b c"); Tok KEof []].
Proof. reflexivity. Qed.

(** C02: longest match, uniquely *)
Theorem C02_longest_match : forall s, exists ts,
  segment s = ts ++ [Tok KEof []] /\ lexes s ts /\ forall ts', lexes s ts' -> ts' = ts.
Proof. exact longest_match. Qed.
Print Assumptions C02_longest_match.

Example C02_example : segment (lit "1.5.x||y$") =
  [Tok KFloat (lit "1.5."); Tok KIdent (lit "x"); Tok KLo (lit "||"); Tok KIdent (lit "y"); Tok KIllegal (lit "$"); Tok KEof []].
Proof. reflexivity. Qed.

(** C03: tokens written with blanks between them *)
Theorem C03_spaced : forall ts s, spaced ts s -> segment s = ts ++ [Tok KEof []].
Proof. exact spaced_segment. Qed.
Print Assumptions C03_spaced.

Example C03_example : spaced [Tok KLet (lit "let"); Tok KIdent (lit "x1")] (lit "let x1").
Proof.
  apply (spd_token [] (lit "let") _ 32 _ (lit "x1")); [constructor| | |].
  - apply sp_keyword. simpl; tauto.
  - unfold ws; simpl; tauto.
  - apply (spd_last [32] (lit "x1")); [constructor; [unfold ws; simpl; tauto|constructor]|].
    apply sp_ident.
    + right; left. vm_compute. split; discriminate.
    + constructor; [right; vm_compute; split; discriminate|constructor].
    + intros k; simpl; intros H; decompose [or] H; try discriminate; contradiction.
Qed.

(** C04: a newline between two texts separates them exactly when the first one
    ends outside a quotation *)
Theorem C04_newline_separates : forall a, closed a <->
  forall b ts, segment a = ts ++ [Tok KEof []] -> segment (a ++ 10 :: b) = ts ++ segment b.
Proof. exact closed_iff. Qed.
Print Assumptions C04_newline_separates.

Example C04_example : closed (lit "x ") /\ ~ closed (lit "x ""y").
Proof.
  split.
  - apply C04_newline_separates. intros b ts E.
    change (segment (lit "x ")) with ([Tok KIdent (lit "x")] ++ [Tok KEof []]) in E.
    apply app_inj_tail in E. destruct E as [<- _]. reflexivity.
  - intros C. apply C04_newline_separates with (b := []) (ts := [Tok KIdent (lit "x"); Tok KString (lit "y")]) in C;
      [discriminate|reflexivity].
Qed.

(** C04, without a separator tokens can fuse *)
Theorem C04_no_separator_refuted : exists a b ts,
  closed a /\ segment a = ts ++ [Tok KEof []] /\ segment (a ++ b) <> ts ++ segment b.
Proof. exact no_separator. Qed.
Print Assumptions C04_no_separator_refuted.
