(** A text of one test that counts, one that overflows and one that cannot. *)
From Verif Require Import TextProofs EvalExamples NewExamples TypesExamples BuildExamples BuiltProofs SpecProcess SpecBuilt ProcessExamples.
Open Scope N_scope.

Definition built_text : str := lit "let n = 5; let m = 9223372036854775807; request get `GET http://h/` test t { let n = n + 1; println(""{x}"", n); get(); } test o { println(""{x}"", n); let m = m + n; println(""{x}"", m); }".
Definition built_setting : setting := Setting true (lit "out") (fun _ => true) (fun _ => []) (fun _ => online) (fun l => l) false.
Definition built_go (b : bool) (text : str) (n : str) : process := launch (@rev _) (in_build b online) (at_file text) (Some n) 2 None 4 true (lit "pod") [].
Definition built_finish (b : bool) (text : str) (n : str) : process := play (setting_in b built_setting) ([Onward; Onward; Onward] ++ taking_turns 40) (built_go b text n).
Lemma built_example : (exists src s1, loads (in_build true online) (at_file built_text) src s1) /\
  goes (setting_in true built_setting) (built_go true built_text (lit "t")) (built_finish true built_text (lit "t")) /\ unhurt (built_finish true built_text (lit "t")) /\
  p_main (built_finish true built_text (lit "t")) = Gone true /\ p_log (built_finish false built_text (lit "t")) = p_log (built_finish true built_text (lit "t")) /\ length (p_log (built_finish true built_text (lit "t"))) = 13%nat /\
  goes (setting_in true built_setting) (built_go true built_text (lit "o")) (built_finish true built_text (lit "o")) /\ ~ unhurt (built_finish true built_text (lit "o")) /\
  goes (setting_in false built_setting) (built_go false built_text (lit "o")) (built_finish false built_text (lit "o")) /\ p_log (built_finish false built_text (lit "o")) <> p_log (built_finish true built_text (lit "o")).
Proof.
  split; [do 4 eexists; split; [vm_compute; reflexivity|]; split; [vm_compute; reflexivity|]; vm_compute; reflexivity|].
  split; [unfold built_finish; apply play_goes|]. split; [vm_compute; repeat constructor; discriminate|]. split; [vm_compute; reflexivity|]. split; [vm_compute; reflexivity|]. split; [vm_compute; reflexivity|].
  split; [unfold built_finish; apply play_goes|]. split; [vm_compute; intros U; inversion U as [|? ? X _]; now apply X|]. split; [unfold built_finish; apply play_goes|]. vm_compute. discriminate.
Qed.
Definition built_half : process := play (setting_in true built_setting) ([Onward; Onward; Onward] ++ repeat (Moves 0) 9) (built_go true built_text (lit "o")).
Lemma until_example : goes (setting_in true built_setting) (built_go true built_text (lit "o")) built_half /\ ~ unhurt built_half /\ p_main built_half <> Gone true /\ p_reported built_half = false /\ p_log built_half = [(Tester 0, Printed (lit "5" ++ [10]))].
Proof.
  split; [unfold built_half; apply play_goes|]. split; [vm_compute; intros U; inversion U as [|? ? X _]; now apply X|]. split; [vm_compute; discriminate|]. split; vm_compute; reflexivity.
Qed.
Definition riskless_text : str := lit "let n = 5; request get `GET http://h/{n}` [status == 200] test t { let r = get(); println(""{x}"", r.status > n); }".
Lemma riskless_example : exists src s1, loads (in_build true online) (at_file riskless_text) src s1 /\ risk_free src /\ (forall x, In x (rev (s_tests src)) -> In x (s_tests src)) /\
  (forall id, steady (g_world built_setting id)) /\
  goes (setting_in true built_setting) (built_go true riskless_text (lit "t")) (built_finish true riskless_text (lit "t")) /\ p_main (built_finish true riskless_text (lit "t")) = Gone true /\ length (p_log (built_finish true riskless_text (lit "t"))) = 13%nat.
Proof.
  do 2 eexists. split; [do 2 eexists; split; [vm_compute; reflexivity|]; split; [vm_compute; reflexivity|]; vm_compute; reflexivity|].
  split. { split.
    - intros name body I. cbn [s_tests] in I. destruct I as [E|[]]. injection E as <- <-. unfold no_risk. harmless.
    - intros n template asserts e I J. cbn [s_requests] in I. destruct I as [E|[]]. injection E as <- <- <-. destruct J as [<-|[]]. unfold no_risk. harmless. }
  split; [intros x I; now apply in_rev|]. split; [intros id; apply safe_example|]. split; [unfold built_finish; apply play_goes|]. split; vm_compute; reflexivity.
Qed.
