(** Whole runs of the program *)
From Verif Require Import SpecProgram ProgramProofs ArgumentProofs ArgumentExamples EvalExamples ValueExamples RunExamples ProcessExamples OutageLaunch OutageExamples SessionExamples.
From Coq Require Import Lia.
Open Scope N_scope.

Lemma tests_proceed g fs k k' : reaches g fs k k' -> proceeds fs (Tests g k) (Tests g k').
Proof. intros R. induction R as [k|fs k k1 k2 x R IH S]; [constructor|econstructor; [exact IH|now constructor]]. Qed.
(** two threads that make five iterations together and record them; one of them is cut off *)
Definition there : outside :=
  Outside online (typed Closed) (Some home) (fun p => if str_eqb p (lit "demo") then at_file demo_text else at_file all_text)
    (fun l => l) (lit "p") old_files (fun _ => true) (fun _ => []) (fun _ => online) (fun l => l) true.
Definition demo_args : list str := [lit "t"; lit "-st2"; lit "-n"; lit "5"; lit "--path=demo"; lit "-r"; lit "out"].
Lemma demo_runs : parse_main true (lit "test" :: demo_args) = Runs (RunTests (Some (lit "t")) 2 None 5 (Some (lit "demo")) (Some (lit "out")) true).
Proof. vm_compute. reflexivity. Qed.
Lemma demo_asks : exists gs, written gs demo_args /\ once_each gs /\ asks true gs (RunTests (Some (lit "t")) 2 None 5 (Some (lit "demo")) (Some (lit "out")) true).
Proof. apply arguments_test, demo_runs. Qed.
Lemma demo_program : proceeds (fst demo_out) (whole_program true there (lit "test" :: demo_args)) (Tests plain (snd demo_out)) /\
  ended_with (Tests plain (snd demo_out)) = Some (Code 0) /\ fst demo_out = [Mute (Tester 1)] /\ length (log (Tests plain (snd demo_out))) = 12%nat.
Proof.
  split; [|vm_compute; auto]. unfold whole_program. rewrite demo_runs. apply (tests_proceed plain), demo_out_reaches.
Qed.
Lemma demo_found : exists src s1 body, loads (os_world there) (root_of (option_map (os_look there) (Some (lit "demo"))) home) src s1 /\ mget (lit "t") (s_tests src) = Some body.
Proof. destruct demo_loads as (src & s1 & body & L & M & _). eauto. Qed.
(** evaluations *)
Lemma eval_program : proceeds [] (whole_program true there [lit "eval"; lit "1 + 2"]) (Left (Code 0) [Printed (lit "3" ++ [10])]).
Proof.
  assert (E : whole_program true there [lit "eval"; lit "1 + 2"] = Talks [] [Printed (lit "3" ++ [10])] (Some 0)) by (vm_compute; reflexivity). rewrite E. apply (talks_on _ 0 []).
Qed.
Lemma eval_refused : proceeds [Mute Main] (whole_program true there [lit "eval"; lit "1 + 2"]) (Left (Code 101) []).
Proof.
  assert (E : whole_program true there [lit "eval"; lit "1 + 2"] = Talks [] [Printed (lit "3" ++ [10])] (Some 0)) by (vm_compute; reflexivity). rewrite E.
  exact (pc_step [] _ _ _ (Some (Mute Main)) (pc_refl _) (cs_refused _ _ _ _)).
Qed.
(** a session that is left with exit *)
Lemma session_program : proceeds [] (whole_program true there []) (Left (Code 0) [Printed (lit "1" ++ [10]); Printed (lit "2" ++ [10])]).
Proof.
  assert (E : whole_program true there [] = Talks [] [Printed (lit "1" ++ [10]); Printed (lit "2" ++ [10])] (Some 0)) by (vm_compute; reflexivity). rewrite E. apply (talks_on _ 0 []).
Qed.
(** a line that runs nothing *)
Lemma rejected_program : whole_program true there [lit "tset"] = Left (Code 2) [] /\ whole_program true there [lit "--version"] = Left (Code 0) [] /\
  whole_program true there [lit "test"; lit "-d18446744073709551615h"] = Left (Code 101) [].
Proof. vm_compute. auto. Qed.
(** every test once; the first one cannot print *)
Definition all_there : outside :=
  Outside online (typed Closed) (Some (at_file all_text)) (fun _ => home) (fun l => l) (lit "/abs") [] (fun _ => true) (fun _ => []) (fun _ => online) (fun l => l) true.
Lemma all_runs : parse_main true [lit "test"; lit "--record"; lit "out"; lit "-t9"; lit "-n9"; lit "-s"] = Runs (RunTests None 9 None 9 None (Some (lit "out")) true).
Proof. vm_compute. reflexivity. Qed.
Lemma all_program : proceeds [Mute (Tester 0)] (whole_program true all_there [lit "test"; lit "--record"; lit "out"; lit "-t9"; lit "-n9"; lit "-s"]) (Tests plain (snd all_muted)) /\
  ended_with (Tests plain (snd all_muted)) = Some (Code 0).
Proof.
  destruct all_muted_seen as (R & F & _). split; [|vm_compute; reflexivity]. unfold whole_program. rewrite all_runs. rewrite F in R. exact (tests_proceed plain _ _ _ R).
Qed.
