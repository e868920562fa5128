(** A session answers as it goes. *)
From Verif Require Import SpecSession SessionProofs EvaluatorTop RunMore.
From Coq Require Import Lia.
Open Scope N_scope.

Lemma inputs_extend bs more e ts ts' : inputs bs Silent ts -> inputs (bs ++ more) e ts' -> exists r, ts' = ts ++ r.
Proof.
  intros H. destruct H as [ls r ts C F _|? ? ? ? ? ? E]; [|discriminate]. revert ts ts' F. induction C as [r N|l bs ls r N C IH]; intros ts ts' F H'.
  - inversion F; subst. eexists. reflexivity.
  - inversion F as [|? t ? ts0 E0 F0]; subst. rewrite <- app_assoc in H'. cbn [app] in H'. apply inputs_line in H'; auto. destruct H' as (t' & ts2 & -> & E' & I').
    assert (t' = t) as -> by (eapply entered_unique; eauto). destruct (IH _ _ F0 I') as (r0 & ->). eexists. reflexivity.
Qed.
Lemma since_trace w es s o s1 : eval_block w es s = (o, s1) -> exists tr, s_trace s1 = s_trace s ++ tr.
Proof. intros H. now destruct (block_frame _ _ _ _ _ H) as (_ & _ & _ & T). Qed.
Lemma line_trace w l s o : line_done w l s o -> exists tr, match o with LPrinted s1 => exists t, s_trace s1 = s_trace s ++ tr ++ [Printed (t ++ [10])] | LPanic s1 | LHang s1 => s_trace s1 = s_trace s ++ tr end.
Proof.
  intros L. destruct L as [e P|src v s1 P E|src e s1 P E|src s1 P E|src s1 P E|P|P]; cbn [printing s_trace].
  - exists []. eexists. reflexivity.
  - destruct (since_trace _ _ _ _ _ E) as (tr & T). cbn [s_trace] in T. exists tr. eexists. rewrite T, <- app_assoc. reflexivity.
  - destruct (since_trace _ _ _ _ _ E) as (tr & T). cbn [s_trace] in T. exists tr. eexists. rewrite T, <- app_assoc. reflexivity.
  - exact (since_trace _ _ _ _ _ E).
  - exact (since_trace _ _ _ _ _ E).
  - exists []. now rewrite app_nil_r.
  - exists []. now rewrite app_nil_r.
Qed.

Lemma session_answered w ts s s' : session w ts s s' -> exists tr, s_trace s' = s_trace s ++ tr /\ answered ts tr.
Proof.
  intros H. induction H as [s|ls s s' H (tr & T & A)|l ls s s' B H (tr & T & A)|l ls s s1 s' NB NE L H (tr & T & A)].
  - exists []. split; [now rewrite app_nil_r|constructor].
  - exists tr. split; [auto|now constructor].
  - exists tr. split; [auto|now constructor].
  - apply line_trace in L. destruct L as (own & t & L). exists (own ++ [Printed (t ++ [10])] ++ tr). split; [|now constructor]. rewrite T, L, <- !app_assoc. reflexivity.
Qed.
Lemma ends_trace w e : forall ts s r, ends w ts s e r -> exists tr, s_trace (snd r) = s_trace s ++ tr.
Proof.
  intros ts s r (pre & rest & s0 & E & S & H). apply session_answered in S. destruct S as (tr & T & _).
  destruct H as [[_ ->]|[(more & _ & ->)|(l & more & s1 & _ & _ & _ & [[L ->]|[L ->]])]]; cbn [snd]; eauto;
    apply line_trace in L; destruct L as (own & L); exists (tr ++ own); rewrite L, T, <- app_assoc; reflexivity.
Qed.
Lemma ends_nil w s e r : ends w [] s e r -> r = (used_up e, s).
Proof.
  intros (pre & rest & s0 & E & S & H). symmetry in E. apply app_eq_nil in E. destruct E as [-> ->]. inversion S; subst.
  destruct H as [[_ ?]|[(more & X & _)|(l & more & s1 & X & _)]]; try discriminate. auto.
Qed.
Lemma ends_extend w e more : forall ts s r r', ends w ts s Silent r -> ends w (ts ++ more) s e r' ->
  (fst r = Waiting /\ exists tr, s_trace (snd r') = s_trace (snd r) ++ tr) \/ (fst r <> Waiting /\ r' = r).
Proof.
  induction ts as [|t ts IH]; intros s r r' H H'.
  - apply ends_nil in H. subst r. left. split; [reflexivity|]. exact (ends_trace _ _ _ _ _ H').
  - cbn [app] in H'. apply ends_opening in H. apply ends_opening in H'. destruct t as [l|]; cbn in H, H'; [|eauto].
    destruct H as [[B H]|[[X H]|(NB & NE & o & L & H)]]; destruct H' as [[B' H']|[[X' H']|(NB' & NE' & o' & L' & H')]]; subst; try contradiction;
      try (now apply exit_not_blank in B); try (now apply exit_not_blank in B'); eauto.
    + right. split; [discriminate|reflexivity].
    + rewrite (line_unique _ _ _ _ _ L' L) in H'. destruct o; subst; eauto; right; (split; [discriminate|reflexivity]).
Qed.
(** what was shown so far stays, whatever comes; a session that has ended stays so *)
Theorem session_early w i i' more : w_ending i = Silent -> arrived (w_arrivals i') = arrived (w_arrivals i) ++ more ->
  (fst (repl_main w i) = Waiting /\ exists tr, s_trace (snd (repl_main w i')) = s_trace (snd (repl_main w i)) ++ tr) \/
  (fst (repl_main w i) <> Waiting /\ repl_main w i' = repl_main w i).
Proof.
  intros E A. destruct (inputs_total (arrived (w_arrivals i)) (w_ending i)) as (ts & I). destruct (inputs_total (arrived (w_arrivals i')) (w_ending i')) as (ts' & I').
  pose proof (session_result w i ts I) as H. pose proof (session_result w i' ts' I') as H'. rewrite E in I, H. rewrite A in I'. destruct (inputs_extend _ _ _ _ _ I I') as (r & ->).
  eapply ends_extend; [exact H|exact H'].
Qed.
(** while it waits every complete line has been answered *)
Theorem session_prompt w i ts : w_ending i = Silent -> inputs (arrived (w_arrivals i)) Silent ts -> fst (repl_main w i) = Waiting ->
  session w ts (St ctx_new []) (snd (repl_main w i)) /\ answered ts (s_trace (snd (repl_main w i))) /\ ~ In (Some (lit "exit")) ts.
Proof.
  intros E I F. rewrite <- E in I. destruct (session_result w i ts I) as (pre & rest & s0 & -> & S & H).
  destruct H as [[-> R]|[(more & _ & R)|(l & more & s1 & _ & _ & _ & [[_ R]|[_ R]])]]; rewrite R in F |- *; try discriminate. cbn [snd]. rewrite app_nil_r. split; auto.
  destruct (session_answered _ _ _ _ S) as (tr & T & A). cbn [s_trace app] in T. rewrite T. split; auto.
  clear -S. induction S as [s|ls s s' H IH|l ls s s' B H IH|l ls s s1 s' NB NE L H IH]; [intros []|intros [X|X]; [discriminate|auto]|intros [X|X]; [|auto]|intros [X|X]; [congruence|auto]].
  injection X as ->. now apply exit_not_blank in B.
Qed.
(** it never waits for more once there is a complete line [exit] *)
Theorem session_leaves w i ts : inputs (arrived (w_arrivals i)) (w_ending i) ts -> In (Some (lit "exit")) ts ->
  fst (repl_main w i) = Exited \/ fst (repl_main w i) = Died \/ fst (repl_main w i) = Endless.
Proof.
  intros I X. destruct (session_result w i ts I) as (pre & rest & s0 & -> & S & H).
  destruct H as [[-> R]|[(more & _ & R)|(l & more & s1 & _ & _ & _ & [[_ R]|[_ R]])]]; rewrite R; auto.
  exfalso. rewrite app_nil_r in X. clear -S X. induction S as [s|ls s s' H IH|l ls s s' B H IH|l ls s s1 s' NB NE L H IH]; [destruct X|destruct X as [X|X]; [discriminate|auto]|destruct X as [X|X]; [|auto]|destruct X as [X|X]; [congruence|auto]].
  injection X as ->. now apply exit_not_blank in B.
Qed.
