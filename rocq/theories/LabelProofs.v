(** The names of tests choose and label, and nothing else *)
From Verif Require Import TextProofs SyntaxProofs EvaluatorProofs EvaluatorTop RunProofs ProcessProofs LockstepProofs SpecProcess SpecPace SpecAdded SpecLabel.
Open Scope N_scope.

Record labelled_job (j j' : job) : Prop := {
  lj_thread : j_thread j = j_thread j';
  lj_file : j_file j = j_file j';
  lj_body : j_body j = j_body j';
  lj_limit : j_limit j = j_limit j';
  lj_ctx : j_ctx j = j_ctx j'
}.
Definition labelled_action := alike_action (@eq event) (@eq record).
Record labelled_tester (t t' : tester) : Prop := {
  lt_job : labelled_job (te_job t) (te_job t');
  lt_env : te_env t = te_env t';
  lt_path : te_path t = te_path t';
  lt_number : te_number t = te_number t';
  lt_phase : te_phase t = te_phase t';
  lt_state : te_state t = te_state t';
  lt_todo : Forall2 labelled_action (te_todo t) (te_todo t')
}.
Lemma records_eq (l : list record) : Forall2 eq l l.
Proof. induction l; constructor; auto. Qed.
Lemma does_labelled l : Forall2 labelled_action (map Does l) (map Does l).
Proof. induction l; constructor; auto. reflexivity. Qed.
Lemma iteration_labelled stat t t' : labelled_tester t t' -> labelled_tester (iteration stat t) (iteration stat t').
Proof.
  intros [J E Pa Nu Ph St Td]. unfold iteration. pose proof J as [J1 J2 J3 J4 J5]. rewrite <- E, <- J3, <- J4, <- St, <- Nu.
  destruct (eval_block (te_env t) _ (te_state t)) as [o s1].
  assert (Sn : Forall2 labelled_action (since (te_state t) s1) (since (te_state t) s1)) by apply does_labelled.
  assert (Pu : forall rs n, Forall2 labelled_action (puts t rs n) (puts t' rs n)). { intros. unfold puts. rewrite <- Pa. destruct (te_path t); repeat constructor. }
  assert (X : forall x, Forall2 labelled_action [Does (Printed x)] [Does (Printed x)]) by (intros; repeat constructor).
  assert (Se : forall rs, Forall2 labelled_action (if stat then [Sends rs] else []) (if stat then [Sends rs] else [])) by (intros; destruct stat; constructor; [apply records_eq|constructor]).
  unfold ctx_records.
  destruct o as [v|e| |], (j_limit (te_job t)) as [m|]; cbn [fst snd]; (split; cbn [te_job te_env te_path te_number te_phase te_state te_todo]; auto).
  all: repeat (apply Forall2_app; auto using does_labelled).
Qed.
Lemma move_labelled stat flag t t' a t1 : labelled_tester t t' -> tester_move stat flag t = Some (a, t1) ->
  exists a' t1', tester_move stat flag t' = Some (a', t1') /\ alike_did eq eq a a' /\ labelled_tester t1 t1'.
Proof.
  intros P M. pose proof (iteration_labelled stat _ _ P) as It. destruct P as [J E Pa Nu Ph St Td]. pose proof J as [J1 J2 J3 J4 J5]. unfold tester_move in *. rewrite <- Ph, <- J4, <- Nu, <- St.
  destruct Td as [|x x' l l' X L].
  - destruct (te_phase t); try discriminate.
    + destruct (j_limit (te_job t)) as [m|]; [|discriminate]. injection M as <- <-. do 2 eexists. split; [reflexivity|]. split; [exact I|]. split; cbn; auto.
    + injection M as <- <-. do 2 eexists. split; [reflexivity|]. split; [exact I|exact It].
  - injection M as <- <-. do 2 eexists. split; [reflexivity|]. split; [exact X|]. split; cbn; auto.
Qed.
Lemma new_labelled g j j' : labelled_job j j' -> labelled_tester (new_tester g j) (new_tester g j').
Proof. intros J. pose proof J as [J1 J2 J3 J4 J5]. unfold new_tester. rewrite <- J1, <- J2, <- J4, <- J5. split; cbn; auto. Qed.
Definition labelled_process := alike_process labelled_job labelled_tester eq eq eq eq.
Lemma eq_records (rs rs' : list record) : Forall2 eq rs rs' -> rs = rs'.
Proof. induction 1; congruence. Qed.
Lemma goes_labelled g p p1 p' : labelled_process p p' -> goes g p p1 -> exists p1', goes g p' p1' /\ labelled_process p1 p1'.
Proof.
  intros P G. refine (goes_alike g g labelled_job labelled_tester eq eq eq eq eq_refl eq_refl _ _ _ _ _ _ _ p p1 G p' P).
  - intros; now apply new_labelled.
  - intros t t' H. apply H.
  - intros t t' [[] ? ? ? ? ? ?]. auto.
  - intros t t' [J E Pa Nu Ph St Td]. unfold gone. rewrite Ph. destruct Td; reflexivity.
  - intros. eapply move_labelled; eassumption.
  - intros rs rs' m m' H <-. now rewrite (eq_records _ _ H).
  - intros m m' <-. reflexivity.
Qed.
Lemma get_label f ts n : (forall a b, In a (map fst ts) -> In b (map fst ts) -> f a = f b -> a = b) -> In n (map fst ts) -> mget (f n) (relabel f ts) = mget n ts.
Proof.
  unfold relabel. induction ts as [|[k b] ts IH]; intros Inj I; [contradiction|]. cbn [map mget fst snd].
  destruct (str_eqb n k) eqn:E.
  - apply str_eqb_eq in E. subst k. rewrite (proj2 (str_eqb_eq _ _) eq_refl). reflexivity.
  - destruct (str_eqb (f n) (f k)) eqn:F.
    + apply str_eqb_eq in F. apply Inj in F; [|exact I|now left]. subst k. rewrite (proj2 (str_eqb_eq _ _) eq_refl) in E. discriminate.
    + apply IH; [intros a c Ia Ic; apply Inj; now right|]. destruct I as [I|I]; auto. cbn in I. subst k. rewrite (proj2 (str_eqb_eq _ _) eq_refl) in E. discriminate.
Qed.
Lemma named_labelled pod c name name' body m n : forall id, Forall2 labelled_job (named_jobs pod c name body m id n) (named_jobs pod c name' body m id n).
Proof. induction n as [|n IH]; intros id; cbn [named_jobs]; constructor; auto. split; reflexivity. Qed.
Lemma all_labelled pod c f ts : forall id, Forall2 labelled_job (all_jobs pod c id ts) (all_jobs pod c id (relabel f ts)).
Proof. induction ts as [|[n b] ts IH]; intros id; cbn [all_jobs relabel map fst snd]; constructor; auto. split; reflexivity. Qed.
Lemma launch_labelled f iter iter' w root root' text text' src src' name threads duration number record pod d :
  read_node (fst root) (snd root) = Some text -> parse text = Ok src -> read_node (fst root') (snd root') = Some text' -> parse text' = Ok src' -> relabelled f src src' ->
  match name with Some n => In n (map fst (s_tests src)) | None => iter' (s_tests src') = relabel f (iter (s_tests src)) end ->
  labelled_process (launch iter w root name threads duration number record pod d) (launch iter' w root' (option_map f name) threads duration number record pod d).
Proof.
  intros Rd Ps Rd' Ps' (Xe & Xr & Xt & Inj) Nm. unfold launch. rewrite Rd, Rd'. unfold main_test, test_command, test_setup. rewrite Ps, Ps', Xe, Xr.
  destruct (eval_block w _ _) as [o s1].
  assert (P : forall m m' l, alike_main labelled_job m m' -> labelled_process (Process m [] true [] [] false (map (pair Main) l) d) (Process m' [] true [] [] false (map (pair Main) l) d)).
  { intros m m' l H. split; cbn; auto; [|intros q; tauto]. unfold alike_log. induction l; constructor; [split; reflexivity|assumption]. }
  destruct o as [v|e| |]; try (apply P; reflexivity).
  destruct name as [name|]; cbn [option_map].
  - rewrite Xt, (get_label f _ _ Inj Nm). destruct (mget name (s_tests src)) as [body|] eqn:B.
    + destruct (maximun_of _ threads) as [m|e| |]; apply P; try reflexivity. apply named_labelled.
    + exfalso. apply in_map_iff in Nm. destruct Nm as ([k b] & E & I). cbn in E. subst k. clear -B I. induction (s_tests src) as [|[k x] l IH]; [contradiction|]. cbn in B. destruct (str_eqb name k) eqn:E; [discriminate|].
      destruct I as [I|I]; [injection I as -> _; rewrite (proj2 (str_eqb_eq _ _) eq_refl) in E; discriminate|auto].
  - rewrite Nm. apply P. apply all_labelled.
Qed.
Lemma labelled_seen p p' : labelled_process p p' -> same_stage (p_main p) (p_main p') /\ p_flag p' = p_flag p /\ p_log p' = p_log p /\ same_files (p_disk p) (p_disk p').
Proof.
  intros [M T F Q Q2 R L D]. split.
  - destruct (p_main p), (p_main p'); cbn in *; try contradiction; auto. induction M; cbn; congruence.
  - split; auto. split; auto. unfold alike_log in L. induction L as [|[a x] [b y] l l' [A B] _ IH]; [reflexivity|]. cbn [fst snd] in A, B. subst b. rewrite IH. destruct a; congruence.
Qed.
Lemma labelled_back p p' : labelled_process p p' -> labelled_process p' p.
Proof.
  assert (S : forall j j', labelled_job j j' -> labelled_job j' j) by (intros j j' []; split; auto).
  assert (A : forall l l', Forall2 labelled_action l l' -> Forall2 labelled_action l' l).
  { induction 1 as [|a a' l l' H _ IH]; constructor; auto. destruct a, a'; cbn in *; auto. apply eq_records in H. subst. apply records_eq. }
  intros [M T F Q Q2 R L D]. split; auto.
  - destruct (p_main p), (p_main p'); cbn in *; try contradiction; auto. induction M; constructor; auto.
  - induction T as [|t t' l l' [] _ IH]; constructor; auto. split; auto.
  - induction Q as [|t t' l l' H _ IH]; constructor; auto. apply eq_records in H. subst. apply records_eq.
  - unfold alike_log in *. induction L as [|[a x] [b y] l l' [E B] _ IH]; constructor; auto. cbn [fst snd] in *. split; [congruence|]. subst b. destruct a; congruence.
  - intros q. specialize (D q). tauto.
Qed.

(** C144 *)
Theorem label_run f g iter iter' w root root' text text' src src' name threads duration number record pod d p :
  read_node (fst root) (snd root) = Some text -> parse text = Ok src -> read_node (fst root') (snd root') = Some text' -> parse text' = Ok src' -> relabelled f src src' ->
  match name with Some n => In n (map fst (s_tests src)) | None => iter' (s_tests src') = relabel f (iter (s_tests src)) end ->
  goes g (launch iter w root name threads duration number record pod d) p ->
  exists p', goes g (launch iter' w root' (option_map f name) threads duration number record pod d) p' /\
    same_stage (p_main p) (p_main p') /\ p_flag p' = p_flag p /\ p_log p' = p_log p /\ same_files (p_disk p) (p_disk p').
Proof.
  intros A B A' B' R N G. destruct (goes_labelled g _ _ _ (launch_labelled f iter iter' w root root' text text' src src' name threads duration number record pod d A B A' B' R N) G) as (p' & G' & P).
  exists p'. split; [exact G'|]. now apply labelled_seen.
Qed.
Theorem label_back f g iter iter' w root root' text text' src src' name threads duration number record pod d p' :
  read_node (fst root) (snd root) = Some text -> parse text = Ok src -> read_node (fst root') (snd root') = Some text' -> parse text' = Ok src' -> relabelled f src src' ->
  match name with Some n => In n (map fst (s_tests src)) | None => iter' (s_tests src') = relabel f (iter (s_tests src)) end ->
  goes g (launch iter' w root' (option_map f name) threads duration number record pod d) p' ->
  exists p, goes g (launch iter w root name threads duration number record pod d) p /\
    same_stage (p_main p) (p_main p') /\ p_flag p' = p_flag p /\ p_log p' = p_log p /\ same_files (p_disk p) (p_disk p').
Proof.
  intros A B A' B' R N G. destruct (goes_labelled g _ _ _ (labelled_back _ _ (launch_labelled f iter iter' w root root' text text' src src' name threads duration number record pod d A B A' B' R N)) G) as (p & G' & P).
  exists p. split; [exact G'|]. apply labelled_seen, labelled_back, P.
Qed.
