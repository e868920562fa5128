(** Command lines that meet the hypotheses of the theorems about them. *)
From Verif Require Import SpecArguments.
From Coq Require Import Permutation Lia.
Open Scope N_scope.

Lemma line_read : parse_main true [lit "test"; lit "-st4"; lit "login"; lit "--duration=90m"; lit "-p"; lit "a b"] =
  Runs (RunTests (Some (lit "login")) 4 (Some 5400) 1 (Some (lit "a b")) None true).
Proof. vm_compute. reflexivity. Qed.
Definition line_gs : list given := [Stat; Sets OThreads (lit "4"); Name (lit "login"); Sets ODuration (lit "90m"); Sets OPath (lit "a b")].
Lemma plain_text (v : str) c s : v = c :: s -> c <> 45 -> ordinary v.
Proof. intros -> N. right. intros r [= E _]. congruence. Qed.
Lemma line_written : written line_gs [lit "-st4"; lit "login"; lit "--duration=90m"; lit "-p"; lit "a b"] /\ once_each line_gs.
Proof.
  split.
  - change line_gs with (([Stat] ++ [Sets OThreads (lit "4")]) ++ [Name (lit "login")] ++ [Sets ODuration (lit "90m")] ++ ([] ++ [Sets OPath (lit "a b")]) ++ []).
    apply (wr_more _ [lit "-st4"]). { apply (sp_short_on [Stat] (lit "s") OThreads (lit "4")); [apply (ss_more [] []); constructor|discriminate|intros r; discriminate]. }
    apply (wr_more _ [lit "login"]). { constructor. eapply plain_text; [reflexivity|discriminate]. }
    apply (wr_more _ [lit "--duration=90m"]). { apply (sp_long_eq ODuration (lit "90m")). }
    apply (wr_more _ [lit "-p"; lit "a b"]). { apply (sp_short [] [] OPath (lit "a b")); [constructor|eapply plain_text; [reflexivity|discriminate]]. }
    constructor.
  - unfold once_each, line_gs. cbn. repeat constructor; cbn; intuition discriminate.
Qed.
Definition line_other : list given := [Sets OPath (lit "a b"); Sets ODuration (lit "90m"); Sets OThreads (lit "4"); Stat; Name (lit "login")].
Lemma line_order : written line_other [lit "--path"; lit "a b"; lit "-d=90m"; lit "-t"; lit "4"; lit "--stat"; lit "--"; lit "login"] /\ Permutation line_gs line_other.
Proof.
  split.
  - change line_other with ([Sets OPath (lit "a b")] ++ ([] ++ [Sets ODuration (lit "90m")]) ++ ([] ++ [Sets OThreads (lit "4")]) ++ [Stat] ++ map Name [lit "login"]).
    apply (wr_more _ [lit "--path"; lit "a b"]). { apply (sp_long OPath (lit "a b")). eapply plain_text; [reflexivity|discriminate]. }
    apply (wr_more _ [lit "-d=90m"]). { apply (sp_short_eq [] [] ODuration (lit "90m")). constructor. }
    apply (wr_more _ [lit "-t"; lit "4"]). { apply (sp_short [] [] OThreads (lit "4")); [constructor|eapply plain_text; [reflexivity|discriminate]]. }
    apply (wr_more _ [lit "--stat"]). { apply sp_stat. }
    apply (wr_rest [lit "login"]).
  - unfold line_gs, line_other.
    assert (P : Permutation [Stat; Sets OThreads (lit "4"); Name (lit "login"); Sets ODuration (lit "90m"); Sets OPath (lit "a b")]
                  (rev [Sets OPath (lit "a b"); Sets ODuration (lit "90m"); Name (lit "login"); Sets OThreads (lit "4"); Stat])) by apply Permutation_refl.
    rewrite P, <- Permutation_rev. do 2 apply perm_skip. eapply perm_trans; [apply perm_swap|]. apply perm_skip. apply perm_swap.
Qed.
Lemma lines_refused : parse_main true [lit "test"; lit "-t"; lit "1"; lit "--threads"; lit "2"] = Rejected /\
  parse_main true [lit "test"; lit "-t"; lit "-1"] = Rejected /\ parse_main true [lit "test"; lit "-t4294967296"] = Rejected /\
  parse_main true [lit "test"; lit "a"; lit "b"] = Rejected /\ parse_main true [lit "test"; lit "--path="] = Rejected /\
  parse_main true [lit "test"; lit "-d"; lit "5"] = Rejected /\ parse_main true [lit "-s"] = Rejected.
Proof. vm_compute. repeat split. Qed.
Lemma eval_lines : parse_main true [lit "eval"; lit "1 - 5"] = Runs (EvalText (lit "1 - 5")) /\
  parse_main true [lit "eval"; lit "-5"] = Rejected /\ parse_main true [lit "eval"; lit "--"; lit "-5"] = Runs (EvalText (lit "-5")) /\
  parse_main true [lit "eval"; lit "-"] = Runs (EvalText (lit "-")).
Proof. vm_compute. repeat split. Qed.
Lemma help_lines : parse_main true [lit "test"; lit "-sh"] = Shows /\ parse_main true [lit "--version"] = Shows /\
  parse_main true [lit "test"; lit "--"; lit "--help"] = Runs (RunTests (Some (lit "--help")) 1 None 1 None None false).
Proof. vm_compute. repeat split. Qed.
Lemma overflow_lines : parse_main true [lit "test"; lit "-d18446744073709551615h"] = Aborts /\
  parse_main false [lit "test"; lit "-d18446744073709551615h"] = Runs (RunTests None 1 (Some 18446744073709548016) 1 None None false).
Proof. vm_compute. repeat split. Qed.
Lemma overflow_hypotheses : let v := lit "18446744073709551615h" in
  written ([Name (lit "t")] ++ [Sets ODuration v]) [lit "t"; lit "--duration=18446744073709551615h"] /\
  asks true [Name (lit "t")] (RunTests (Some (lit "t")) 1 None 1 None None false) /\ endless v.
Proof.
  intros v. split; [|split].
  - apply (wr_more _ [lit "t"]). { constructor. eapply plain_text; [reflexivity|discriminate]. }
    apply (wr_more [Sets ODuration v] [lit "--duration=18446744073709551615h"] [] []); [|constructor]. apply (sp_long_eq ODuration v).
  - constructor; try (intros u [?|[]]; discriminate).
    + intros n. cbn. split; [intros [= <-]; auto|intros [[= <-]|[]]; auto].
    + right. split; auto. intros u [?|[]]; discriminate.
    + right. split; auto. intros u [?|[]]; discriminate.
    + cbn. intuition discriminate.
  - exists (lit "18446744073709551615"), 104, 18446744073709551615, 3600. split; [reflexivity|]. split; [|split].
    + exists (lit "18446744073709551615"). split; auto. split; [discriminate|]. split; [repeat constructor; vm_compute; discriminate|]. split; [reflexivity|vm_compute; discriminate].
    + right. right. auto.
    + vm_compute. discriminate.
Qed.
