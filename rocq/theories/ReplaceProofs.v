(** Proofs: a body that does the same can take the place of another in every run *)
From Verif Require Import TextProofs SyntaxProofs EvaluatorProofs EvaluatorTop ReadsProofs RefactorProofs RunProofs ProcessProofs SpecProcess SpecReplace.
Open Scope N_scope.

Lemma from_back w reqs R b b' v v' : serves_from w reqs R b b' v v' -> serves_from w reqs (fun x y => R y x) b' b v' v.
Proof.
  intros H recs tr o s1 o' s1' E E'. destruct (H _ _ _ _ _ _ E' E) as (L & A & B & C). split; [|split; [now symmetry|split; [now symmetry|]]].
  - destruct o, o'; cbn in *; auto.
  - intros [x ->]. apply C. destruct o'; cbn in L; try contradiction. eauto.
Qed.
Lemma serves_back w reqs R b b' : serves_as w reqs R b b' -> serves_as w reqs (fun x y => R y x) b' b.
Proof. intros H v v' Rv. apply from_back, H, Rv. Qed.
Lemma tests_back worlds reqs R ts ts' : tests_serve worlds reqs R ts ts' -> tests_serve worlds reqs (fun x y => R y x) ts' ts.
Proof. induction 1 as [|t t' l l' [A B] _ IH]; constructor; auto. split; [now symmetry|]. intros id. apply serves_back, B. Qed.

Section Replace.
Variables (g : setting) (reqs : amap (str * list expr)) (R : amap value -> amap value -> Prop).
Record same_job (j j' : job) : Prop := {
  sj_thread : j_thread j = j_thread j';
  sj_file : j_file j = j_file j';
  sj_name : j_name j = j_name j';
  sj_limit : j_limit j = j_limit j';
  sj_recs : c_recs (j_ctx j) = c_recs (j_ctx j');
  sj_reqs : c_reqs (j_ctx j) = reqs;
  sj_reqs' : c_reqs (j_ctx j') = reqs;
  sj_vars : R (c_vars (j_ctx j)) (c_vars (j_ctx j'));
  sj_body : forall id, serves_as (g_world g id) reqs R (j_body j) (j_body j')
}.
Definition ends (ph : phase) : Prop := ph <> AtHead /\ ph <> InBody.
Record same_tester (t t' : tester) : Prop := {
  st_job : same_job (te_job t) (te_job t');
  st_world : exists id, te_env t = g_world g id;
  st_env : te_env t = te_env t';
  st_path : te_path t = te_path t';
  st_accept : te_accept t = te_accept t';
  st_number : te_number t = te_number t';
  st_phase : te_phase t = te_phase t';
  st_todo : te_todo t = te_todo t';
  st_state : ends (te_phase t) \/ (s_trace (te_state t) = s_trace (te_state t') /\ c_recs (s_ctx (te_state t)) = c_recs (s_ctx (te_state t')) /\
    c_reqs (s_ctx (te_state t)) = reqs /\ c_reqs (s_ctx (te_state t')) = reqs /\ R (c_vars (s_ctx (te_state t))) (c_vars (s_ctx (te_state t'))))
}.
Lemma iteration_same stat t t' : same_tester t t' -> te_phase t = InBody -> same_tester (iteration stat t) (iteration stat t').
Proof.
  intros [J [id W] E Pa Ac Nu Ph Td St] In. pose proof J as [J1 J2 J3 J4 J5 J6 J7 J7' J8]. destruct St as [[_ St]|(S1 & S2 & S3 & S4 & S5)]; [congruence|].
  unfold iteration. rewrite <- E, <- J4, <- Nu.
  destruct t as [j w pa ac nu s ph td], t' as [j' w' pa' ac' nu' s' ph' td']. cbn [te_job te_env te_path te_accept te_number te_state te_phase te_todo] in *. subst w' pa' ac' nu' ph' td'.
  destruct s as [[v q r] tr], s' as [[v' q' r'] tr']. cbn [s_ctx s_trace c_vars c_reqs c_recs] in *. subst r' q q' tr'.
  destruct (eval_block w (j_body j) _) as [o s1] eqn:E1. destruct (eval_block w (j_body j') _) as [o' s1'] eqn:E2.
  assert (B : serves_as w reqs R (j_body j) (j_body j')) by (rewrite W; apply J8). destruct (B _ _ S5 _ _ _ _ _ _ E1 E2) as (L & Rc & Tr & Rn).
  pose proof (block_frame _ _ _ _ _ E1) as (_ & Q1 & _). pose proof (block_frame _ _ _ _ _ E2) as (_ & Q2 & _). cbn [s_ctx c_reqs] in Q1, Q2.
  assert (Pu : forall rs n, puts (Test j' w pa ac nu (St (Ctx v' reqs r) tr) ph td) rs n = puts (Test j w pa ac nu (St (Ctx v reqs r) tr) ph td) rs n) by (intros; unfold puts; cbn [te_path te_job]; rewrite J3, J1; reflexivity).
  assert (Si : since (St (Ctx v' reqs r) tr) s1' = since (St (Ctx v reqs r) tr) s1) by (unfold since; cbn [s_trace]; now rewrite Tr).
  unfold ctx_records. rewrite Rc.
  destruct o as [x|e| |], o' as [x'|e'| |]; cbn in L; try contradiction; destruct (j_limit j) as [m|] eqn:Lm.
  all: split; cbn [te_job te_env te_path te_accept te_number te_state te_phase te_todo]; eauto.
  all: try rewrite Si; try rewrite Pu; try (left; split; discriminate); auto.
  - right. cbn [s_ctx s_trace c_vars c_reqs c_recs]. rewrite Tr. repeat split; auto. apply Rn. eauto.
  - unfold complaint in L. injection L as L. rewrite L. reflexivity.
  - unfold complaint in L. injection L as L. rewrite L. reflexivity.
Qed.
Lemma move_same stat flag t t' a t1 : same_tester t t' -> tester_move stat flag t = Some (a, t1) ->
  exists t1', tester_move stat flag t' = Some (a, t1') /\ same_tester t1 t1'.
Proof.
  intros P M. pose proof (iteration_same stat _ _ P) as It. destruct P as [J W E Pa Ac Nu Ph Td St]. pose proof J as [J1 J2 J3 J4 J5 J6 J7 J7' J8]. unfold tester_move in *. rewrite <- Ph, <- J4, <- Nu, <- Td, <- ?Ac.
  destruct (te_todo t) as [|x l].
  - destruct (te_phase t) eqn:Pt; try discriminate.
    + destruct (j_limit (te_job t)) as [m|] eqn:Lm; [|discriminate]. injection M as <- <-. eexists. split; [reflexivity|]. split; cbn [te_job te_env te_path te_accept te_number te_state te_phase te_todo]; auto; try congruence.
      destruct St as [[St _]|St]; [congruence|]. now right.
    + injection M as <- <-. eexists. split; [reflexivity|]. exact (It eq_refl).
  - injection M as <- <-. eexists. split; [reflexivity|]. split; cbn [te_job te_env te_path te_accept te_number te_state te_phase te_todo]; auto; try congruence; try (destruct x; congruence).
Qed.
Lemma new_same j j' : same_job j j' -> same_tester (new_tester g j) (new_tester g j').
Proof.
  intros J. pose proof J as [J1 J2 J3 J4 J5 J6 J7 J7' J8]. unfold new_tester. rewrite <- J1, <- J2, <- J4. split; cbn [te_job te_env te_path te_accept te_number te_state te_phase te_todo]; eauto.
  right. cbn [s_ctx s_trace]. auto.
Qed.
Definition same_main (m m' : main_phase) : Prop :=
  match m, m' with Starting js, Starting js' => Forall2 same_job js js' | Starting _, _ => False | _, Starting _ => False | _, _ => m = m' end.
Record same_process (p p' : process) : Prop := {
  sp_main : same_main (p_main p) (p_main p');
  sp_testers : Forall2 same_tester (p_testers p) (p_testers p');
  sp_flag : p_flag p' = p_flag p;
  sp_queue : p_queue p' = p_queue p;
  sp_stats : p_stats p' = p_stats p;
  sp_reported : p_reported p' = p_reported p;
  sp_log : p_log p' = p_log p;
  sp_disk : p_disk p' = p_disk p
}.
Lemma gone_same t t' : same_tester t t' -> gone t' = gone t.
Proof. intros [J W E Pa Ac Nu Ph Td St]. unfold gone. now rewrite Ph, Td. Qed.
Lemma step_same p p1 p' : same_process p p' -> process_step g p p1 -> exists p1', process_step g p' p1' /\ same_process p1 p1'.
Proof.
  intros [M T F Q Q2 Rr L D] S. destruct p' as [m' ts' flag' q' st' r' l' d']. cbn in M, T, F, Q, Q2, Rr, L, D.
  destruct S; cbn in M, T, F, Q, Q2, Rr, L, D; subst.
  - destruct m'; try contradiction. inversion M as [|? j' ? js' Mj Mjs]; subst. pose proof (new_same _ _ Mj) as Nw. pose proof (st_path _ _ Nw) as Pa. eexists. split; [apply ps_start; rewrite <- Pa; assumption|].
    split; cbn [p_main p_testers p_flag p_queue p_stats p_reported p_log p_disk]; auto.
    + apply Forall2_app; auto.
    + now rewrite <- Pa.
  - destruct m'; try contradiction. inversion M as [|? j' ? js' Mj Mjs]; subst. pose proof (new_same _ _ Mj) as Nw. pose proof (st_path _ _ Nw) as Pa. eexists. split; [eapply ps_no_file; [rewrite <- Pa; eassumption|assumption]|]. split; cbn; auto.
  - destruct m'; try contradiction. inversion M; subst. eexists. split; [apply ps_started|]. split; cbn; auto.
  - apply Forall2_app_inv_l in T. destruct T as (u1 & u2 & T1 & T2 & ->). inversion T2 as [|? t0 ? u2' Tt T3]; subst.
    match goal with H : tester_move _ _ _ = _ |- _ => destruct (move_same _ _ _ _ _ _ Tt H) as (t1' & Mv & Tn) end.
    assert (Rn : running m' = true) by (destruct mp, m'; cbn in M |- *; try contradiction; try reflexivity; try discriminate).
    eexists. split; [eapply ps_tester; [exact Rn|exact Mv]|]. pose proof (sj_thread _ _ (st_job _ _ Tt)) as Th. pose proof (st_path _ _ Tt) as Pa. pose proof (st_accept _ _ Tt) as Ac.
    split; cbn [p_main p_testers p_flag p_queue p_stats p_reported p_log p_disk]; auto.
    + apply Forall2_app; auto.
    + now rewrite Th.
    + unfold disk_after. rewrite <- ?Pa, <- ?Ac. reflexivity.
  - destruct m'; try contradiction; try discriminate. eexists. split; [apply ps_stop|]. split; cbn; auto.
  - destruct m'; try contradiction; try discriminate. eexists. split; [apply ps_receive; congruence|]. split; cbn; auto.
  - destruct m'; try contradiction; try discriminate. eexists. split; [apply ps_report; [congruence|]|].
    + match goal with H : Forall _ ts |- _ => revert H end. clear -T. induction T as [|t t' ts ts' Tt _ IH]; intros H; [constructor|]. inversion H; subst. constructor; auto. rewrite (gone_same _ _ Tt), <- (sj_limit _ _ (st_job _ _ Tt)). assumption.
    + split; cbn [p_main p_testers p_flag p_queue p_stats p_reported p_log p_disk]; auto.
  - destruct m'; try contradiction; try discriminate. eexists. split; [apply ps_exit; [|congruence]|].
    + match goal with H : Forall _ ts |- _ => revert H end. clear -T. induction T as [|t t' ts ts' Tt _ IH]; intros H; [constructor|]. inversion H; subst. constructor; auto. now rewrite (gone_same _ _ Tt).
    + split; cbn; auto.
  - destruct m'; try contradiction; try discriminate. eexists. split; [apply ps_die|]. split; cbn; auto.
Qed.
Lemma goes_same p p1 : goes g p p1 -> forall p', same_process p p' -> exists p1', goes g p' p1' /\ same_process p1 p1'.
Proof.
  induction 1 as [p|p p1 p2 G IH S]; intros p' P; [exists p'; split; [constructor|exact P]|].
  destruct (IH _ P) as (p1' & G' & P1). destruct (step_same _ _ _ P1 S) as (p2' & S' & P2). exists p2'. split; [eapply go_step; eassumption|exact P2].
Qed.
Lemma named_same pod c c' name body body' m n : c_reqs c = reqs -> c_reqs c' = reqs -> R (c_vars c) (c_vars c') -> (forall id, serves_as (g_world g id) reqs R body body') -> forall id, Forall2 same_job (named_jobs pod c name body m id n) (named_jobs pod c' name body' m id n).
Proof. intros C C' V B. induction n as [|n IH]; intros id; cbn [named_jobs]; constructor; auto. split; cbn; auto. Qed.
Lemma all_same pod c c' ts ts' : c_reqs c = reqs -> c_reqs c' = reqs -> R (c_vars c) (c_vars c') -> tests_serve (g_world g) reqs R ts ts' -> forall id, Forall2 same_job (all_jobs pod c id ts) (all_jobs pod c' id ts').
Proof. intros C C' V. induction 1 as [|[n b] [n' b'] ts ts' [E B] _ IH]; intros id; cbn [all_jobs]; constructor; auto. cbn in E. subst. split; cbn; auto. Qed.
Lemma tests_get ts ts' n : tests_serve (g_world g) reqs R ts ts' -> match mget n ts, mget n ts' with Some b, Some b' => forall id, serves_as (g_world g id) reqs R b b' | None, None => True | _, _ => False end.
Proof.
  induction 1 as [|[k b] [k' b'] ts ts' [E B] _ IH]; cbn [mget]; auto. cbn in E. subst. destruct (str_eqb n k); auto.
Qed.
Lemma launch_same iter iter' w root root' text text' src src' name threads duration number record pod d :
  reqs = mextend [] (s_requests src) -> read_node (fst root) (snd root) = Some text -> parse text = Ok src -> read_node (fst root') (snd root') = Some text' -> parse text' = Ok src' ->
  serves_from w reqs R (s_exprs src) (s_exprs src') [] [] -> s_requests src' = s_requests src -> tests_serve (g_world g) reqs R (s_tests src) (s_tests src') ->
  (name = None -> tests_serve (g_world g) reqs R (iter (s_tests src)) (iter' (s_tests src'))) ->
  same_process (launch iter w root name threads duration number record pod d) (launch iter' w root' name threads duration number record pod d).
Proof.
  intros Rq Rd Ps Rd' Ps' Xe Xr Xt Nm. unfold launch. rewrite Rd, Rd'. unfold main_test, test_command, test_setup. rewrite Ps, Ps', Xr.
  change (upd (fun c => ctx_extend c (s_requests src)) (St ctx_new [])) with (St (Ctx [] (mextend [] (s_requests src)) []) []). rewrite <- Rq.
  destruct (eval_block w (s_exprs src) _) as [o s1] eqn:Ev. destruct (eval_block w (s_exprs src') _) as [o' s1'] eqn:Ev'.
  pose proof (block_frame _ _ _ _ _ Ev) as (_ & C & _). pose proof (block_frame _ _ _ _ _ Ev') as (_ & C' & _). cbn [s_ctx c_reqs] in C, C'.
  destruct (Xe _ _ _ _ _ _ Ev Ev') as (L & Rc & Tr & V).
  assert (P : forall m m' l, same_main m m' -> same_process (Process m [] true [] [] false (map (pair Main) l) d) (Process m' [] true [] [] false (map (pair Main) l) d)) by (intros m m' l H; split; cbn; auto).
  destruct o as [v|e| |], o' as [v'|e'| |]; cbn in L; try contradiction; rewrite ?Tr; try (apply P; exact eq_refl).
  - assert (Vv : R (c_vars (s_ctx s1)) (c_vars (s_ctx s1'))) by (apply V; eauto). destruct name as [name|].
    + pose proof (tests_get _ _ name Xt) as Gt. destruct (mget name (s_tests src)) as [body|], (mget name (s_tests src')) as [body'|]; try contradiction.
      * destruct (maximun_of _ threads) as [m|e| |]; rewrite ?Tr; apply P; try exact eq_refl. apply named_same; auto.
      * unfold println_, emit. cbn [s_trace]. rewrite Tr. apply P. constructor.
    + rewrite ?Tr. apply P. apply all_same; auto.
  - unfold complaint in L. injection L as L. unfold println_, emit. cbn [s_trace]. rewrite Tr. 
    apply app_inv_tail in L. rewrite L. apply P. exact eq_refl.
Qed.
Lemma same_seen p p' : same_process p p' -> same_stage (p_main p) (p_main p') /\ p_flag p' = p_flag p /\ p_log p' = p_log p /\ p_disk p' = p_disk p.
Proof.
  intros [M T F Q Q2 Rr L D]. split; auto. destruct (p_main p), (p_main p'); cbn in *; try contradiction; auto. induction M; cbn; congruence.
Qed.
End Replace.

(** C146 *)
Theorem replace_run g (R : amap value -> amap value -> Prop) iter iter' w root root' text text' src src' name threads duration number record pod d p :
  read_node (fst root) (snd root) = Some text -> parse text = Ok src -> read_node (fst root') (snd root') = Some text' -> parse text' = Ok src' -> bodies_replaced (g_world g) w R src src' ->
  (name = None -> tests_serve (g_world g) (mextend [] (s_requests src)) R (iter (s_tests src)) (iter' (s_tests src'))) ->
  goes g (launch iter w root name threads duration number record pod d) p ->
  exists p', goes g (launch iter' w root' name threads duration number record pod d) p' /\
    same_stage (p_main p) (p_main p') /\ p_flag p' = p_flag p /\ p_log p' = p_log p /\ p_disk p' = p_disk p.
Proof.
  intros A B A' B' (Xr & Xe & Xt) N G.
  destruct (goes_same g _ R _ _ G _ (launch_same g _ R iter iter' w root root' text text' src src' name threads duration number record pod d eq_refl A B A' B' Xe Xr Xt N)) as (p' & G' & P).
  exists p'. split; [exact G'|]. eapply same_seen, P.
Qed.
Theorem replace_back g (R : amap value -> amap value -> Prop) iter iter' w root root' text text' src src' name threads duration number record pod d p' :
  read_node (fst root) (snd root) = Some text -> parse text = Ok src -> read_node (fst root') (snd root') = Some text' -> parse text' = Ok src' -> bodies_replaced (g_world g) w R src src' ->
  (name = None -> tests_serve (g_world g) (mextend [] (s_requests src)) R (iter (s_tests src)) (iter' (s_tests src'))) ->
  goes g (launch iter' w root' name threads duration number record pod d) p' ->
  exists p, goes g (launch iter w root name threads duration number record pod d) p /\
    same_stage (p_main p) (p_main p') /\ p_flag p' = p_flag p /\ p_log p' = p_log p /\ p_disk p' = p_disk p.
Proof.
  intros A B A' B' (Xr & Xe & Xt) N G.
  destruct (replace_run g (fun x y => R y x) iter' iter w root' root text' text src' src name threads duration number record pod d p' A' B' A B) as (p & G' & S1 & S2 & S3 & S4).
  - unfold bodies_replaced. rewrite Xr. split; [reflexivity|]. split; [apply from_back, Xe|now apply tests_back].
  - intros E. rewrite Xr. apply tests_back; auto.
  - exact G.
  - exists p. split; [exact G'|]. split; [|now repeat split]. destruct (p_main p), (p_main p'); cbn in *; auto.
Qed.
(** what serves as what *)
Theorem serves_self w reqs b : serves_as w reqs eq b b.
Proof. intros v v' <- recs tr o s1 o' s1' E E'. rewrite E in E'. injection E' as <- <-. repeat split; auto. destruct o; cbn; auto. Qed.
Theorem from_self w reqs (R : amap value -> amap value -> Prop) b v : (forall x, R x x) -> serves_from w reqs R b b v v.
Proof. intros Rf recs tr o s1 o' s1' E E'. rewrite E in E'. injection E' as <- <-. repeat split; auto. destruct o; cbn; auto. Qed.
Lemma reads_serve w reqs ns b : (forall e n, In e b -> In n ns -> ~ SpecReads.reads reqs e n) -> serves_as w reqs (same_off ns) b b.
Proof.
  intros H v v' Rv recs tr o s1 o' s1' E E'.
  destruct (block_reads_only w b (St (Ctx v reqs recs) tr) (St (Ctx v' reqs recs) tr) eq_refl) as (o2 & tr2 & recs2 & v1 & v2 & E1 & E2 & Mv); [reflexivity| |].
  { intros e n I Rd. symmetry. apply Rv. intros J. exact (H e n I J Rd). }
  cbn [s_ctx c_vars c_reqs c_recs s_trace] in E1, E2, Mv. rewrite E in E1. rewrite E' in E2. injection E1 as -> ->. injection E2 as -> ->. cbn [s_ctx c_vars c_reqs c_recs s_trace].
  split; [destruct o2; cbn; auto|]. split; [reflexivity|]. split; [reflexivity|]. intros _ n I. destruct (Mv n) as [[-> ->]|Eq]; [now apply Rv|now symmetry].
Qed.
Theorem unused_serves w reqs a es : es <> [] -> called a = [] -> (forall s, exists v s1, eval_expr w a s = (Ok v, s1)) ->
  (forall e n, In e es -> In n (let_names a) -> ~ SpecReads.reads reqs e n) ->
  serves_as w reqs (same_off (let_names a)) (a :: es) es.
Proof.
  intros Ne Ca Al Un v v' Rv recs tr o s1 o' s1' E E'. destruct (Al (St (Ctx v reqs recs) tr)) as (x & s2 & Ea).
  destruct (drop_unused w a es (St (Ctx v reqs recs) tr) x s2 Ne Ca Ea Un) as (o2 & t & t' & E1 & E2 & (Sv & _ & Sr & St)). rewrite E in E1. injection E1 as -> ->.
  destruct (reads_serve w reqs (let_names a) es Un _ _ Rv _ _ _ _ _ _ E2 E') as (L & Rc & Tr & Rn). split; [exact L|]. split; [congruence|]. split; [congruence|].
  intros Ok1 n I. rewrite (Rn Ok1 n I). now apply Sv.
Qed.
Theorem serves_trans w reqs R1 R2 a b c : serves_as w reqs R1 a b -> serves_as w reqs R2 b c -> serves_as w reqs (fun x z => exists y, R1 x y /\ R2 y z) a c.
Proof.
  intros H1 H2 v v' (y & Ry & Rz) recs tr o s1 o' s1' E E'. destruct (eval_block w b (St (Ctx y reqs recs) tr)) as [o2 s2] eqn:E2.
  destruct (H1 _ _ Ry _ _ _ _ _ _ E E2) as (L1 & C1 & T1 & N1). destruct (H2 _ _ Rz _ _ _ _ _ _ E2 E') as (L2 & C2 & T2 & N2).
  split; [destruct o, o2, o'; cbn in *; try contradiction; congruence|]. split; [congruence|]. split; [congruence|]. intros X. exists (c_vars (s_ctx s2)). split; auto. apply N2.
  destruct X as [x ->]. destruct o2; cbn in L1; try contradiction. eauto.
Qed.
Theorem serves_parts w reqs R a a' b b' : b <> [] -> b' <> [] -> serves_as w reqs R a a' -> serves_as w reqs R b b' -> serves_as w reqs R (a ++ b) (a' ++ b').
Proof.
  intros Nb Nb' Ha Hb v v' Rv recs tr o s1 o' s1' E E'. rewrite block_app in E, E' by auto.
  destruct (eval_block w a _) as [oa sa] eqn:A. destruct (eval_block w a' _) as [oa' sa'] eqn:A'. destruct (Ha _ _ Rv _ _ _ _ _ _ A A') as (L & Rc & Tr & Rn).
  pose proof (block_frame _ _ _ _ _ A) as (_ & Q & _). pose proof (block_frame _ _ _ _ _ A') as (_ & Q' & _). cbn [s_ctx c_reqs] in Q, Q'.
  destruct oa as [x|e| |], oa' as [x'|e'| |]; cbn in L; try contradiction.
  - destruct sa as [[va qa ra] ta], sa' as [[va' qa' ra'] ta']. cbn [s_ctx s_trace c_vars c_reqs c_recs] in *. subst qa qa' ra' ta'. exact (Hb _ _ (Rn (ex_intro _ _ eq_refl)) _ _ _ _ _ _ E E').
  - injection E as <- <-. injection E' as <- <-. split; [exact L|]. split; [exact Rc|]. split; [exact Tr|]. intros [y Y]. discriminate.
  - injection E as <- <-. injection E' as <- <-. split; [exact L|]. split; [exact Rc|]. split; [exact Tr|]. intros [y Y]. discriminate.
  - injection E as <- <-. injection E' as <- <-. split; [exact L|]. split; [exact Rc|]. split; [exact Tr|]. intros [y Y]. discriminate.
Qed.
Lemma swap_two w reqs a b : called a = [] -> (forall s, exists v s1, eval_expr w a s = (Ok v, s1)) -> independent reqs a b -> serves_as w reqs (same_off []) [a; b] [b; a].
Proof.
  intros C Al Ind v v' Rv recs tr o s1 o' s1' E E'. change [a; b] with ([a] ++ [b]) in E. change [b; a] with ([b] ++ [a]) in E'. rewrite block_app in E, E' by discriminate. rewrite block_one in E, E'.
  destruct (Al (St (Ctx v reqs recs) tr)) as (x & sa & A). destruct (eval_expr w b (St (Ctx v reqs recs) tr)) as [ob sb] eqn:B.
  destruct (diamond w a b (St (Ctx v reqs recs) tr) _ _ _ _ C Ind A B) as (s2 & t2 & E1 & E2 & Ss). rewrite A in E. rewrite block_one in E. rewrite E1 in E. injection E as <- <-.
  assert (S0 : same_state (St (Ctx v reqs recs) tr) (St (Ctx v' reqs recs) tr)) by (split; [intros n; apply Rv; auto|auto]).
  destruct (same_block w [b] _ _ S0) as (ob' & t & t' & F & F' & Sb). rewrite block_one in F, F'. rewrite B in F. injection F as <- <-. rewrite F' in E'.
  pose proof (quiet_keeps _ _ _ _ _ C E2) as (_ & K2 & T2). destruct Ss as (Sv & Sq & Sr & St). 
  destruct ob as [y|e| |].
  - rewrite block_one in E'. destruct (same_block w [a] _ _ Sb) as (oa' & u & u' & G & G' & Sa). rewrite block_one in G, G'. rewrite E2 in G. injection G as <- <-. rewrite G' in E'. injection E' as <- <-.
    destruct Sa as (Av & Aq & Ar & At). split; [exact I|]. split; [congruence|]. split; [congruence|]. intros _ n _. now rewrite Av, Sv.
  - injection E' as <- <-. destruct Sb as (Bv & Bq & Br & Bt). split; [reflexivity|]. split; [congruence|]. split; [congruence|]. intros [z Z]. discriminate.
  - injection E' as <- <-. destruct Sb as (Bv & Bq & Br & Bt). split; [exact I|]. split; [congruence|]. split; [congruence|]. intros [z Z]. discriminate.
  - injection E' as <- <-. destruct Sb as (Bv & Bq & Br & Bt). split; [exact I|]. split; [congruence|]. split; [congruence|]. intros [z Z]. discriminate.
Qed.
Theorem swap_serves w reqs es1 a b es2 : called a = [] -> (forall s, exists v s1, eval_expr w a s = (Ok v, s1)) -> independent reqs a b ->
  serves_as w reqs (same_off []) (es1 ++ a :: b :: es2) (es1 ++ b :: a :: es2) /\ serves_as w reqs (same_off []) (es1 ++ b :: a :: es2) (es1 ++ a :: b :: es2).
Proof.
  intros C Al Ind. assert (Rs : forall es, serves_as w reqs (same_off []) es es) by (intros es; apply reads_serve; intros e n _ []).
  assert (H : serves_as w reqs (same_off []) (es1 ++ a :: b :: es2) (es1 ++ b :: a :: es2)).
  { apply serves_parts; [discriminate|discriminate|apply Rs|]. destruct es2 as [|e es2]; [now apply swap_two|].
    change (a :: b :: e :: es2) with ([a; b] ++ e :: es2). change (b :: a :: e :: es2) with ([b; a] ++ e :: es2). apply serves_parts; [discriminate|discriminate|now apply swap_two|apply Rs]. }
  split; [exact H|]. intros v v' Rv recs tr o s1 o' s1' E E'.
  assert (Rv' : same_off [] v' v) by (intros n N; symmetry; apply Rv; exact N).
  destruct (serves_back _ _ _ _ _ H v v' Rv' recs tr o s1 o' s1' E E') as (L & A & B & D). split; [exact L|]. split; [exact A|]. split; [exact B|].
  intros X n N. symmetry. exact (D X n N).
Qed.
