(** Texts that stand in templates or in variables: cases *)
From Verif Require Import TextProofs LexerProofs TemplateProofs JsonProofs EvalExamples HttpExamples ValidProofs AssertProofs AssertExamples ReportExamples SuiteProofs PrintsProofs PrintsExamples ChainExamples BranchExamples WholeProofs WholeExamples FixedProofs SpecProcess SpecBranch SpecFixed ProcessExamples.
Open Scope N_scope.

(** the suite of C129 with the scheme in a variable as well, and one variable that nothing uses *)
Definition base_vars : list (str * str) := [(lit "base", lit "http://h"); (lit "page", lit "t"); (lit "idle", lit "x")].
Definition look_again : demand := Demand (lit "look") (lit "GET {base}/") name_check shop_message.
Definition take_again : demand := Demand (lit "take") (lit "GET {base}/{page}") no_check t_message.
Definition again_tests : list (str * list demand) := [(lit "one", [take_again; look_again; take_again]); (lit "idle", []); (lit "two", [look_again])].
Definition again_text : str := whole_suite base_vars [look_again; take_again] again_tests.
Lemma messages_example : suite_fits shop_vars shop_demands shop_tests /\ suite_fits base_vars [look_again; take_again] again_tests /\
  Forall2 same_demand shop_demands [look_again; take_again] /\ Forall2 (fun t t' => fst t' = fst t /\ Forall2 same_demand (snd t) (snd t')) shop_tests again_tests /\
  read_node (fst (at_file whole_text)) (snd (at_file whole_text)) = Some (whole_suite shop_vars shop_demands shop_tests) /\
  read_node (fst (at_file again_text)) (snd (at_file again_text)) = Some (whole_suite base_vars [look_again; take_again] again_tests) /\
  (forall src src', parse (whole_suite shop_vars shop_demands shop_tests) = Ok src -> parse (whole_suite base_vars [look_again; take_again] again_tests) = Ok src' ->
    rev (s_tests src') = rev (s_tests src) /\ Permutation (rev (s_tests src)) (s_tests src)) /\
  again_text = lit "let base = ""http://h"";" ++ [10] ++ lit "let page = ""t"";" ++ [10] ++ lit "let idle = ""x"";" ++ [10] ++
    lit "request look`GET {base}/`[status == 200]" ++ [10] ++ lit "request take`GET {base}/{page}`[body == ""no""]" ++ [10] ++
    lit "test one { take(); look(); take(); }" ++ [10] ++ lit "test idle { }" ++ [10] ++ lit "test two { look(); }" ++ [10] /\
  goes honest_setting named_launch named_finish /\ p_main named_finish = Gone true.
Proof.
  destruct whole_example as (S & _ & Rd & _ & _ & G & E & _). destruct S as (V & Nd & D & Nt & T). pose proof D as D0. apply Forall_cons_iff in D. destruct D as [(Nl & _ & Wl & _) D]. apply Forall_cons_iff in D. destruct D as [(Nk & _ & Wk & _) _].
  split; [repeat split; auto|]. split.
  { split. { repeat apply Forall_cons; try apply Forall_nil; (split; [apply new_named; vm_compute; reflexivity|vm_compute; intuition discriminate]). }
    split; [repeat constructor; vm_compute; intuition discriminate|]. split.
    - apply Forall_cons; [|apply Forall_cons; [|apply Forall_nil]].
      + split; [exact Nl|]. split; [vm_compute; intuition discriminate|]. split; [exact Wl|]. cbn [d_template d_message look_again].
        replace shop_message with (substitute (var_text (e_host online) (with_vars base_vars ctx_new)) (lit "GET {base}/")) by (vm_compute; reflexivity). apply filled_by.
      + split; [exact Nk|]. split; [vm_compute; intuition discriminate|]. split; [exact Wk|]. cbn [d_template d_message take_again].
        replace t_message with (substitute (var_text (e_host online) (with_vars base_vars ctx_new)) (lit "GET {base}/{page}")) by (vm_compute; reflexivity). apply filled_by.
    - split; [repeat constructor; vm_compute; intuition discriminate|].
      repeat apply Forall_cons; try apply Forall_nil; (split; [apply new_named; vm_compute; reflexivity|]); intros q I; cbn in I |- *; intuition. }
  split; [repeat constructor|]. split; [repeat constructor|]. split; [exact Rd|]. split; [vm_compute; reflexivity|].
  split. { intros src src' P P'. assert (Y : s_tests src' = s_tests src). { revert P P'. vm_compute. intros [= <-] [= <-]. reflexivity. } rewrite Y. split; auto. apply Permutation_sym, Permutation_rev. }
  split; [vm_compute; reflexivity|]. split; auto.
Qed.

(** texts and numbers written out in a template, one variable of it being set by the test *)
Definition far_text : str := lit "let host = ""h""; let port = 80; request r `GET http://{host}:{port}/{page}` test t { let page = 1; r(); println(host) }".
Definition near_text : str := lit "let host = ""h""; let port = 80; request r `GET http://h:{port}/{page}` test t { let page = 1; r(); println(host) }".
Definition host_texts : list (str * str) := [(lit "host", lit "h"); (lit "port", lit "80")].
Definition run_of (t : str) : process := launch (fun l => l) online (at_file t) (Some (lit "t")) 1 None 1 false [] [].
Definition done_of (t : str) : process := play quiet ([Onward; Onward; Onward] ++ taking_turns 20) (run_of t).
Lemma name_hole n : forallb is_ident_char n = true -> match n with c :: _ => is_ident_start c = true | [] => False end -> hole (123 :: n ++ [125]) n.
Proof.
  intros F S. split.
  - destruct n as [|c n]; [contradiction|]. cbn [forallb] in F. apply andb_true_iff in F. destruct F as [_ F]. exists c, n. split; auto.
    split; [now apply is_ident_start_iff|]. apply Forall_forall. intros x I. apply is_ident_char_iff. rewrite forallb_forall in F. auto.
  - exists [], []. repeat split; constructor.
Qed.
Lemma scan_hole n s ps : forallb is_ident_char n = true -> match n with c :: _ => is_ident_start c = true | [] => False end -> scan s ps -> scan (123 :: n ++ 125 :: s) (Hole n :: ps).
Proof. intros F S Sc. pose proof (sc_hole _ n s ps (name_hole n F S) Sc) as X. cbn [app] in X. rewrite <- app_assoc in X. exact X. Qed.
Ltac scanned := repeat (first [apply sc_nil | apply sc_lit; [apply lit_by_match; vm_compute; reflexivity|]
  | match goal with |- scan (123 :: 104 :: 111 :: 115 :: 116 :: 125 :: ?r) _ => apply (scan_hole (lit "host") r) end
  | match goal with |- scan (123 :: 112 :: 111 :: 114 :: 116 :: 125 :: ?r) _ => apply (scan_hole (lit "port") r) end
  | match goal with |- scan (123 :: 112 :: 97 :: 103 :: 101 :: 125 :: ?r) _ => apply (scan_hole (lit "page") r) end]); try (vm_compute; reflexivity).
Lemma worded_example : exists src src' defs v vs v' vs', parse far_text = Ok src /\ parse near_text = Ok src' /\ s_exprs src = defs ++ [] /\ s_exprs src' = defs ++ [] /\
  eval_block online defs (St (Ctx [] (mextend [] (s_requests src)) []) []) = (Ok v, St (Ctx vs (mextend [] (s_requests src)) []) []) /\
  eval_block online defs (St (Ctx [] (mextend [] (s_requests src')) []) []) = (Ok v', St (Ctx vs' (mextend [] (s_requests src')) []) []) /\
  has_texts host_texts (Ctx vs [] []) /\ has_texts host_texts (Ctx vs' [] []) /\ agree_outside [] (Ctx vs [] []) (Ctx vs' [] []) /\
  same_wording host_texts host_texts [] (s_requests src) (s_requests src') /\ (forall t, mget t (s_tests src') = mget t (s_tests src)) /\
  (forall t b, mget t (s_tests src) = Some b -> Forall (leaves host_texts host_texts []) b) /\
  goes quiet (run_of far_text) (done_of far_text) /\ p_main (done_of far_text) = Gone true /\ hd_error (p_log (done_of far_text)) = Some (Tester 0, Sent (lit "GET http://h:80/1")) /\
  goes quiet (run_of near_text) (done_of near_text) /\ p_log (done_of near_text) = p_log (done_of far_text).
Proof.
  do 7 eexists. split; [vm_compute; reflexivity|]. split; [vm_compute; reflexivity|]. cbn [s_exprs s_requests s_tests]. split; [symmetry; apply app_nil_r|]. split; [symmetry; apply app_nil_r|].
  split; [vm_compute; reflexivity|]. split; [vm_compute; reflexivity|].
  assert (H : forall n v, mget n host_texts = Some v -> n = lit "host" /\ v = lit "h" \/ n = lit "port" /\ v = lit "80").
  { intros n v X. apply mget_some_in in X. destruct X as [X|[X|[]]]; injection X as <- <-; auto. }
  split; [intros n v X w; destruct (H n v X) as [[-> ->]|[-> ->]]; vm_compute; reflexivity|]. split; [intros n v X w; destruct (H n v X) as [[-> ->]|[-> ->]]; vm_compute; reflexivity|].
  split; [intros n _; reflexivity|]. split.
  { intros r. cbn [mget]. destruct (str_eqb _ _); [|exact I]. split; auto. do 2 eexists. split; [scanned|]. split; [scanned|]. split; [vm_compute; reflexivity|]. intros n []. }
  split; [reflexivity|]. split.
  { intros t b X. cbn [mget] in X. destruct (str_eqb _ _) in X; [|discriminate]. injection X as <-. repeat apply Forall_cons; try apply Forall_nil; (split; [intros n []|]); intros n N J; vm_compute in N, J; intuition congruence. }
  split; [apply play_goes|]. split; [vm_compute; reflexivity|]. split; [vm_compute; reflexivity|]. split; [apply play_goes|]. vm_compute. reflexivity.
Qed.
(** a variable the test sets: its text may not be written out *)
Definition set_text : str := lit "let host = ""h""; request r `GET http://{host}/` test t { let host = ""x""; r() }".
Definition fast_text : str := lit "let host = ""h""; request r `GET http://h/` test t { let host = ""x""; r() }".
Theorem setting_matters : exists src src' s1 s1', loads online (at_file set_text) src s1 /\ loads online (at_file fast_text) src' s1' /\ has_texts [(lit "host", lit "h")] (s_ctx s1) /\ has_texts [(lit "host", lit "h")] (s_ctx s1') /\
  agree_outside [] (s_ctx s1) (s_ctx s1') /\ same_wording [(lit "host", lit "h")] [(lit "host", lit "h")] [] (s_requests src) (s_requests src') /\ s_tests src' = s_tests src /\
  exists p p', goes quiet (run_of set_text) p /\ p_main p = Gone true /\ p_flag p = true /\ goes quiet (run_of fast_text) p' /\ p_main p' = Gone true /\ p_flag p' = true /\
  hd_error (p_log p) = Some (Tester 0, Sent (lit "GET http://x/")) /\ hd_error (p_log p') = Some (Tester 0, Sent (lit "GET http://h/")).
Proof.
  do 4 eexists. split; [exists set_text; eexists; split; [vm_compute; reflexivity|split; [vm_compute; reflexivity|vm_compute; reflexivity]]|].
  split; [exists fast_text; eexists; split; [vm_compute; reflexivity|split; [vm_compute; reflexivity|vm_compute; reflexivity]]|].
  assert (H : forall n v, mget n [(lit "host", lit "h")] = Some v -> n = lit "host" /\ v = lit "h") by (intros n v X; apply mget_some_in in X; destruct X as [X|[]]; injection X as <- <-; auto).
  split; [intros n v X w; destruct (H n v X) as [-> ->]; vm_compute; reflexivity|]. split; [intros n v X w; destruct (H n v X) as [-> ->]; vm_compute; reflexivity|].
  split; [intros n _; reflexivity|]. split.
  { intros r. cbn [mget s_requests]. destruct (str_eqb _ _); [|exact I]. split; auto. do 2 eexists. split; [scanned|]. split; [scanned|]. split; [vm_compute; reflexivity|]. intros n []. }
  split; [reflexivity|]. exists (done_of set_text), (done_of fast_text).
  split; [apply play_goes|]. split; [vm_compute; reflexivity|]. split; [vm_compute; reflexivity|]. split; [apply play_goes|]. split; [vm_compute; reflexivity|]. split; [vm_compute; reflexivity|]. split; vm_compute; reflexivity.
Qed.
(** a text with braces: in the template it is a placeholder *)
Theorem braces_matter : exists text text' p p', text = lit "let a = ""{b}""; let b = ""x""; request r `GET http://{a}/` test t { r() }" /\ text' = lit "let a = ""{b}""; let b = ""x""; request r `GET http://{b}/` test t { r() }" /\
  goes quiet (run_of text) p /\ p_main p = Gone true /\ p_flag p = true /\ goes quiet (run_of text') p' /\ p_main p' = Gone true /\ p_flag p' = true /\
  hd_error (p_log p) = Some (Tester 0, Sent (lit "GET http://{b}/")) /\ hd_error (p_log p') = Some (Tester 0, Sent (lit "GET http://x/")).
Proof.
  do 2 eexists. exists (done_of (lit "let a = ""{b}""; let b = ""x""; request r `GET http://{a}/` test t { r() }")), (done_of (lit "let a = ""{b}""; let b = ""x""; request r `GET http://{b}/` test t { r() }")). split; [reflexivity|]. split; [reflexivity|].
  split; [apply play_goes|]. split; [vm_compute; reflexivity|]. split; [vm_compute; reflexivity|]. split; [apply play_goes|]. split; [vm_compute; reflexivity|]. split; [vm_compute; reflexivity|]. split; vm_compute; reflexivity.
Qed.
(** tests of different bodies that do the same *)
Definition brief_text : str := lit "test t { print(""a"") }".
Definition wordy_text : str := lit "test t { let x = 1; print(""a"") }".
Lemma same_example : exists R src src' s1 s1', same_doings R /\ loads online (at_file brief_text) src s1 /\ loads online (at_file wordy_text) src' s1' /\ s_trace s1' = s_trace s1 /\
  (match mget (lit "t") (s_tests src), mget (lit "t") (s_tests src') with Some b, Some b' => b <> b' /\ R b (s_ctx s1) b' (s_ctx s1') | _, _ => False end) /\
  goes quiet (run_of brief_text) (done_of brief_text) /\ p_main (done_of brief_text) = Gone true /\ p_log (done_of brief_text) = [(Tester 0, Printed (lit "a"))].
Proof.
  exists (fun b c b' c' => b = [ECall (lit "print") [EStr (lit "a")]] /\ b' = [ELet (lit "x") (EInt 1); ECall (lit "print") [EStr (lit "a")]] /\ c_reqs c = [] /\ c_reqs c' = [] /\ c_recs c' = c_recs c).
  do 4 eexists. split.
  { intros b [v r k] b' [v' r' k'] (-> & -> & A & B & C). cbn [c_reqs c_recs c_vars] in *. subst. split; [|repeat split; auto].
    intros w tr. do 5 eexists. split; [reflexivity|]. split; [reflexivity|]. split; [exact I|]. split; [reflexivity|]. repeat split. }
  split; [exists brief_text; eexists; split; [vm_compute; reflexivity|split; [vm_compute; reflexivity|vm_compute; reflexivity]]|].
  split; [exists wordy_text; eexists; split; [vm_compute; reflexivity|split; [vm_compute; reflexivity|vm_compute; reflexivity]]|].
  split; [reflexivity|]. split; [cbn; split; [discriminate|repeat split]|]. split; [apply play_goes|]. split; vm_compute; reflexivity.
Qed.
