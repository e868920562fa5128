(** Proofs about the whole program. *)
From Verif Require Import SpecProgram ArgumentProofs SessionProofs OutageLaunch FewText SpecNumber SpecFloat64.
From Coq Require Import Lia Permutation QArith.
Open Scope N_scope.

Lemma proceeds_tests fs g k c : proceeds fs (Tests g k) c -> exists k', c = Tests g k' /\ reaches g fs k k'.
Proof.
  remember (Tests g k) as c0 eqn:E. intros H. induction H as [c|fs c c1 c2 x H IH S]; subst; [eexists; split; [reflexivity|constructor]|].
  destruct (IH eq_refl) as (k1 & -> & R). inversion S; subst. eexists. split; [reflexivity|]. econstructor; eauto.
Qed.
Lemma proceeds_talks fs todo n c : proceeds fs (Talks [] todo n) c ->
  (exists did rest, c = Talks did rest n /\ todo = did ++ rest /\ fs = []) \/
  (exists m, c = Left (Code m) todo /\ n = Some m /\ fs = []) \/
  (exists did t rest, c = Left (Code 101) did /\ todo = did ++ Printed t :: rest /\ fs = [Mute Main]) \/
  (exists did rest, c = Left Signalled did /\ todo = did ++ rest /\ fs = [Signal]).
Proof.
  remember (Talks [] todo n) as c0 eqn:E. intros H. induction H as [c|fs c c1 c2 x H IH S]; subst; [left; exists [], todo; auto|].
  destruct (IH eq_refl) as [(did & rest & -> & -> & ->)|[(m & -> & _)|[(did & t & rest & -> & _)|(did & rest & -> & _)]]]; try (inversion S; fail).
  inversion S; subst; cbn [app].
  - left. eexists _, _. split; [reflexivity|]. split; [now rewrite <- app_assoc|reflexivity].
  - right. right. left. eauto 7.
  - right. left. rewrite app_nil_r. eauto.
  - right. right. right. eauto.
Qed.
Lemma proceeds_over fs s l c : proceeds fs (Left s l) c -> c = Left s l /\ fs = [].
Proof.
  remember (Left s l) as c0 eqn:E. intros H. induction H as [c|fs c c1 c2 x H IH S]; subst; auto.
  destruct (IH eq_refl) as [-> ->]. inversion S.
Qed.

(** ** command lines that run nothing *)
Theorem program_unrun checks o args fs c : (forall i, parse_main checks args <> Runs i) -> proceeds fs (whole_program checks o args) c ->
  fs = [] /\ log c = [] /\ files o c = os_disk o /\
  ended_with c = Some (Code (match parse_main checks args with Rejected => 2 | Aborts => 101 | _ => 0 end)).
Proof.
  intros N H. unfold whole_program in H. destruct (parse_main checks args) as [i| | |]; [now destruct (N i)|..]; apply proceeds_over in H as [-> ->]; auto.
Qed.
Theorem program_usage checks o args fs c : proceeds fs (whole_program checks o args) c -> ended_with c = Some (Code 2) -> parse_main checks args = Rejected.
Proof.
  intros H E. destruct (parse_main checks args) as [i| | |] eqn:P; auto; exfalso.
  - unfold whole_program in H. rewrite P in H. destruct i as [|text|name threads duration number path record stat].
    + destruct (repl_main (os_world o) (os_input o)) as [e s].
      apply proceeds_talks in H as [(did & rest & -> & _)|[(m & -> & M & _)|[(did & t & rest & -> & _)|(did & rest & -> & _)]]]; try discriminate.
      injection E as ->. destruct e; discriminate.
    + destruct (eval_main (os_world o) text) as [ok l].
      apply proceeds_talks in H as [(did & rest & -> & _)|[(m & -> & M & _)|[(did & t & rest & -> & _)|(did & rest & -> & _)]]]; try discriminate.
      injection E as ->. destruct ok as [[|]|]; discriminate.
    + apply proceeds_tests in H as (k & -> & _). cbn in E. destruct k as [| |[[|]| |] ? ? ?]; discriminate.
  - destruct (program_unrun checks o args fs c) as (_ & _ & _ & Q); [rewrite P; discriminate|exact H|]. rewrite P, E in Q. discriminate.
  - destruct (program_unrun checks o args fs c) as (_ & _ & _ & Q); [rewrite P; discriminate|exact H|]. rewrite P, E in Q. discriminate.
Qed.

(** ** evaluating a text, and sessions *)
Lemma talks_carried o fs tr n c : proceeds fs (Talks [] tr n) c -> files o c = os_disk o /\ carried tr n fs c.
Proof.
  intros H. apply proceeds_talks in H as [(did & rest & -> & -> & ->)|[(m & -> & -> & ->)|[(did & t & rest & -> & -> & ->)|(did & rest & -> & -> & ->)]]];
    (split; [reflexivity|]); unfold carried; cbn [log ended_with];
    (split; [first [now eexists|exists []; symmetry; apply app_nil_r]|]); (split; [congruence|]); intros s E; try discriminate; injection E as <-.
  - left. eauto 6.
  - right. left. eauto 6.
  - right. right. auto.
Qed.
Lemma proceeds_trans fs gs c1 c2 c3 : proceeds fs c1 c2 -> proceeds gs c2 c3 -> proceeds (fs ++ gs) c1 c3.
Proof.
  intros A B. induction B as [c|gs c2 c3 c4 x B IH S]; [now rewrite app_nil_r|]. rewrite app_assoc. econstructor; [exact (IH A)|exact S].
Qed.
Lemma proceeds_one c1 c2 : course_step None c1 c2 -> proceeds [] c1 c2.
Proof. intros S. exact (pc_step [] c1 c1 c2 None (pc_refl c1) S). Qed.
Lemma talks_on todo m : forall did, proceeds [] (Talks did todo (Some m)) (Left (Code m) (did ++ todo)).
Proof.
  induction todo as [|e todo IH]; intros did.
  - rewrite app_nil_r. apply proceeds_one. constructor.
  - change (@nil trouble) with (@nil trouble ++ []). eapply proceeds_trans; [apply proceeds_one; constructor|].
    replace (did ++ e :: todo) with ((did ++ [e]) ++ todo) by (now rewrite <- app_assoc). apply IH.
Qed.
Lemma talks_end fs tr m c : proceeds fs (Talks [] tr (Some m)) c -> ended_with c = None ->
  exists c', proceeds [] c c' /\ ended_with c' = Some (Code m) /\ log c' = tr.
Proof.
  intros H E. apply proceeds_talks in H as [(did & rest & -> & -> & ->)|[(n & -> & _)|[(did & t & rest & -> & _)|(did & rest & -> & _)]]]; try discriminate.
  exists (Left (Code m) (did ++ rest)). split; [apply talks_on|auto].
Qed.

Theorem program_eval checks o args text fs c :
  ordinary text /\ (args = [lit "eval"; text] \/ args = [lit "eval"; text; lit "--"]) \/ args = [lit "eval"; lit "--"; text] ->
  proceeds fs (whole_program checks o args) c ->
  files o c = os_disk o /\ exists r, line_done (os_world o) text (St ctx_new []) r /\
  match r with LPrinted s => carried (s_trace s) (Some 0) fs c | LPanic s => carried (s_trace s) (Some 101) fs c | LHang s => carried (s_trace s) None fs c end.
Proof.
  intros A H. apply (arguments_eval checks) in A. unfold whole_program in H. rewrite A in H. destruct (eval_result (os_world o) text) as (r & L & E). rewrite E in H.
  destruct r as [s|s|s]; apply (talks_carried o) in H as [F G]; (split; [exact F|]); eexists; (split; [exact L|]); exact G.
Qed.
Theorem program_eval_ends checks o args text fs c :
  ordinary text /\ (args = [lit "eval"; text] \/ args = [lit "eval"; text; lit "--"]) \/ args = [lit "eval"; lit "--"; text] ->
  (forall s, ~ line_done (os_world o) text (St ctx_new []) (LHang s)) ->
  proceeds fs (whole_program checks o args) c -> ended_with c = None -> exists c' s, proceeds [] c c' /\ ended_with c' = Some s.
Proof.
  intros A N H Q. apply (arguments_eval checks) in A. unfold whole_program in H. rewrite A in H. destruct (eval_result (os_world o) text) as (r & L & E). rewrite E in H.
  destruct r as [s|s|s]; [..|now destruct (N s)]; destruct (talks_end _ _ _ _ H Q) as (c' & P & D & _); eauto.
Qed.
Theorem program_typed checks o l x : decimal_text l x -> tidy l -> In 46 l -> digits 15 x -> (scaled 1 (-1022) <= x < too_large)%Q ->
  forall c s, proceeds [] (whole_program checks o [lit "eval"; lit "--"; l]) c -> ended_with c = Some s -> s = Code 0 /\ log c = [Printed (l ++ [10])].
Proof.
  intros D T P G R c s H E. pose proof (typed_shown (os_world o) l x D T P G R) as V.
  assert (A : parse_main checks [lit "eval"; lit "--"; l] = Runs (EvalText l)) by (apply arguments_eval; auto).
  unfold whole_program in H. rewrite A, V in H. apply (talks_carried o) in H as (_ & _ & _ & X).
  destruct (X s E) as [(_ & L & m & [= <-] & ->)|[(F & _)|(F & _)]]; try discriminate. auto.
Qed.
Theorem program_session checks o args ts fs c : args = [] \/ args = [lit "--"] ->
  inputs (arrived (w_arrivals (os_input o))) (w_ending (os_input o)) ts -> proceeds fs (whole_program checks o args) c ->
  files o c = os_disk o /\ exists pre rest s0, ts = pre ++ rest /\ session (os_world o) pre (St ctx_new []) s0 /\
  ((rest = [] /\ carried (s_trace s0) None fs c) \/
   (exists more, rest = Some (lit "exit") :: more /\ carried (s_trace s0) (Some 0) fs c) \/
   (exists l more s1, rest = Some l :: more /\ ~ blank l /\ l <> lit "exit" /\
     ((line_done (os_world o) l s0 (LPanic s1) /\ carried (s_trace s1) (Some 101) fs c) \/ (line_done (os_world o) l s0 (LHang s1) /\ carried (s_trace s1) None fs c)))).
Proof.
  intros A I H. apply (arguments_repl checks) in A. unfold whole_program in H. rewrite A in H.
  destruct (session_result (os_world o) _ _ I) as (pre & rest & s0 & T & S & X).
  assert (F : files o c = os_disk o) by (destruct (repl_main (os_world o) (os_input o)) as [e s]; exact (proj1 (talks_carried o _ _ _ _ H))).
  split; [exact F|]. exists pre, rest, s0. split; [exact T|]. split; [exact S|].
  destruct X as [(Z & E)|[(more & Z & E)|(l & more & s1 & Z & NB & NE & [(L & E)|(L & E)])]]; rewrite E in H.
  - left. split; auto. destruct (w_ending (os_input o)); exact (proj2 (talks_carried o _ _ _ _ H)).
  - right. left. exists more. split; auto. exact (proj2 (talks_carried o _ _ _ _ H)).
  - right. right. exists l, more, s1. repeat (split; [assumption|]). left. split; auto. exact (proj2 (talks_carried o _ _ _ _ H)).
  - right. right. exists l, more, s1. repeat (split; [assumption|]). right. split; auto. exact (proj2 (talks_carried o _ _ _ _ H)).
Qed.

(** ** the tests *)
Lemma program_tests_is checks o args gs name threads duration number path record stat :
  written gs args -> once_each gs -> asks checks gs (RunTests name threads duration number path record stat) ->
  whole_program checks o (lit "test" :: args) = Tests (setting_for o record stat)
    (command_start (os_iter o) (os_world o) (os_here o) (option_map (os_look o) path) name threads duration number
                   (match record with Some _ => true | None => false end) (os_pod o) (os_disk o)).
Proof.
  intros W O A. assert (P : parse_main checks (lit "test" :: args) = Runs (RunTests name threads duration number path record stat)) by (apply arguments_test; eauto).
  unfold whole_program. now rewrite P.
Qed.
Theorem program_tests checks o args gs name threads duration number path record stat h src s1 body fs c :
  written gs args -> once_each gs -> asks checks gs (RunTests (Some name) threads duration number path record stat) -> os_here o = Some h ->
  loads (os_world o) (root_of (option_map (os_look o) path) h) src s1 -> mget name (s_tests src) = Some body -> threads <> 0 ->
  proceeds fs (whole_program checks o (lit "test" :: args)) c -> ended_with c = Some (Code 0) ->
  exists bss l stopped, length bss = N.to_nat threads /\ log c = map snd l /\
  (forall id bs, nth_error bss (N.to_nat id) = Some bs -> let own := events_of (Tester id) l in
    (~ In (Mute (Tester id)) fs -> done_with (os_worlds o id) body (s_ctx s1) (share duration number threads) stopped bs own) /\
    (In (Mute (Tester id)) fs -> cut_short (os_worlds o id) body (s_ctx s1) (share duration number threads) bs own) /\
    (forall dir, record = Some dir -> let g := into o dir stat in
      mget (record_path g (os_pod o) id) (files o c) = Some (recorded g (record_path g (os_pod o) id) name id bs))) /\
  (stat = false \/ In (Mute Collector) fs -> events_of Collector l = []) /\
  (stat = true -> ~ In (Mute Collector) fs -> (forall ks, Permutation (os_order o ks) ks) ->
    exists l1 text, l = l1 ++ [(Collector, Printed text)] /\ events_of Collector l1 = [] /\ stat_report (flat_map samples (List.concat bss)) text).
Proof.
  intros W O A E Lo M Z H X. rewrite (program_tests_is _ _ _ _ _ _ _ _ _ _ _ W O A), E in H. apply proceeds_tests in H as (k & -> & R).
  cbn [ended_with] in X. destruct k as [| |[[|]| |] stopped l d']; try discriminate.
  destruct (outage_named_end _ _ _ _ _ _ _ _ _ _ _ _ _ _ _ _ _ _ _ Lo M Z R) as (bss & LB & T & C1 & C2).
  exists bss, l, stopped. split; [exact LB|]. split; [reflexivity|]. split; [|split; assumption].
  intros id bs N. destruct (T id bs N) as (T1 & T2 & T3). split; [exact T1|]. split; [exact T2|]. intros dir ->. exact (T3 eq_refl).
Qed.
Theorem program_tests_ends checks o args gs name threads duration number path record stat h src s1 body fs c :
  written gs args -> once_each gs -> asks checks gs (RunTests (Some name) threads duration number path record stat) -> os_here o = Some h ->
  loads (os_world o) (root_of (option_map (os_look o) path) h) src s1 -> mget name (s_tests src) = Some body -> threads <> 0 ->
  (forall id n s bs, id < threads -> n < share duration number threads -> iterated (os_worlds o id) body (s_ctx s1) n s bs -> fst (eval_block (os_worlds o id) body s) <> Diverge) ->
  proceeds fs (whole_program checks o (lit "test" :: args)) c -> ended_with c = None ->
  exists (b : bool) c', proceeds [] c c' /\ ended_with c' = Some (Code (if b then 0 else 101)).
Proof.
  intros W O A E Lo M Z ND H X. rewrite (program_tests_is _ _ _ _ _ _ _ _ _ _ _ W O A), E in H. apply proceeds_tests in H as (k & -> & R).
  destruct (outage_named_ends (os_iter o) (os_world o) h (option_map (os_look o) path) name threads duration number (match record with Some _ => true | None => false end) (os_pod o) (os_disk o) (setting_for o record stat) src s1 body fs k Lo M Z ND R) as (b & l & d' & Q).
  { intros e s l d' ->. destruct e; discriminate. }
  exists b, (Tests (setting_for o record stat) (Ended (Exit b) (stopped_of k) l d')). split; [|reflexivity].
  clear -Q. induction Q as [k|fs k k1 k2 x Q IH S]; [constructor|econstructor; [exact IH|now constructor]].
Qed.
Theorem program_tests_status checks o args gs name threads duration number path record stat h src s1 body fs c :
  written gs args -> once_each gs -> asks checks gs (RunTests (Some name) threads duration number path record stat) -> os_here o = Some h ->
  loads (os_world o) (root_of (option_map (os_look o) path) h) src s1 -> mget name (s_tests src) = Some body -> threads <> 0 ->
  (forall dir, record = Some dir -> forall id, id < threads -> os_creates o (record_path (into o dir stat) (os_pod o) id) = true) ->
  proceeds fs (whole_program checks o (lit "test" :: args)) c -> ended_with c = Some (Code 101) -> fs = [Mute Main] \/ exists fs', fs = fs' ++ [Unstarted].
Proof.
  intros W O A E Lo M Z Cr H X. rewrite (program_tests_is _ _ _ _ _ _ _ _ _ _ _ W O A), E in H. apply proceeds_tests in H as (k & -> & R).
  cbn [ended_with] in X. destruct k as [| |[[|]| |] stopped l d']; try discriminate.
  eapply outage_named_status; [exact Lo|exact M|exact Z| |exact R]. intros RT. destruct record as [dir|]; [exact (Cr dir eq_refl)|discriminate].
Qed.
Theorem program_all checks o args gs threads duration number path record stat h src s1 fs c :
  written gs args -> once_each gs -> asks checks gs (RunTests None threads duration number path record stat) -> os_here o = Some h ->
  loads (os_world o) (root_of (option_map (os_look o) path) h) src s1 -> N.of_nat (length (os_iter o (s_tests src))) <= 2 ^ 32 ->
  proceeds fs (whole_program checks o (lit "test" :: args)) c -> ended_with c = Some (Code 0) ->
  exists l, log c = map snd l /\
  (forall id name body, nth_error (os_iter o (s_tests src)) (N.to_nat id) = Some (name, body) ->
    exists r s2, eval_block (os_worlds o id) body (St (Ctx (c_vars (s_ctx s1)) (c_reqs (s_ctx s1)) []) []) = (r, s2) /\
    let own := events_of (Tester id) l in let whole := s_trace s2 ++ afterwards_once (os_worlds o id) r s2 in
    (~ In (Mute (Tester id)) fs -> own = whole /\ r <> Diverge) /\
    (In (Mute (Tester id)) fs -> exists x rest, whole = own ++ Printed x :: rest) /\
    (forall dir, record = Some dir -> let g := into o dir stat in let file := record_path g (os_pod o) id in
      (In (Mute (Tester id)) fs \/ r = Panic -> mget file (files o c) = Some (recorded g file name id [])) /\
      (~ In (Mute (Tester id)) fs -> r <> Panic -> mget file (files o c) = Some (recorded g file name id [c_recs (s_ctx s2)])))) /\
  (stat = false \/ In (Mute Collector) fs -> events_of Collector l = []) /\
  (stat = true -> ~ In (Mute Collector) fs -> events_of Collector l = [Printed []]).
Proof.
  intros W O A E Lo Fe H X. rewrite (program_tests_is _ _ _ _ _ _ _ _ _ _ _ W O A), E in H. apply proceeds_tests in H as (k & -> & R).
  cbn [ended_with] in X. destruct k as [| |[[|]| |] stopped l d']; try discriminate.
  destruct (outage_all_end _ _ _ _ _ _ _ _ _ _ _ _ _ _ _ _ _ Lo Fe R) as (T & C1 & C2).
  exists l. split; [reflexivity|]. split; [|split; assumption].
  intros id name body N. destruct (T id name body N) as (r & s2 & EV & T1 & T2 & T3 & T4). exists r, s2. split; [exact EV|]. split; [exact T1|]. split; [exact T2|].
  intros dir ->. split; [exact (T3 eq_refl)|exact (T4 eq_refl)].
Qed.
Theorem program_nowhere checks o args gs name threads duration number path record stat fs c :
  written gs args -> once_each gs -> asks checks gs (RunTests name threads duration number path record stat) -> os_here o = None ->
  proceeds fs (whole_program checks o (lit "test" :: args)) c -> fs = [] /\ ended_with c = Some (Code 101) /\ log c = [] /\ files o c = os_disk o.
Proof.
  intros W O A E H. rewrite (program_tests_is _ _ _ _ _ _ _ _ _ _ _ W O A), E in H. apply proceeds_tests in H as (k & -> & R).
  apply outage_nowhere in R as [-> ->]. auto.
Qed.
