(** Proofs about suites with any number of requests and tests. *)
From Verif Require Import TextProofs ShowProofs TemplateProofs LexOneProofs LexerProofs LayoutProofs EvaluatorProofs EvaluatorTop ReadComplete SpecReading ByLineProofs ArrivesProofs EvalExamples
  AssertProofs ValidProofs VerdictProofs LiveProofs SuiteProofs PrintsProofs ChainProofs BranchProofs ProcessTop ProcessOnce ProcessRun ProcessProofs ProcessEnds ProcessLaunch SpecProcess SpecLayout SpecWhole.
From Coq Require Import Lia.
Open Scope N_scope.

(** ** one time through a test *)
(** the records of one time through a test, and the responses and reports *)
Definition kept (w : env) (tr : list event) (calls : list demand) (xs : list (response * str)) (recs : list record) : Prop :=
  length recs = length calls /\
  forall i q, nth_error calls i = Some q -> exists rec, nth_error recs i = Some rec /\ nth_error xs i = Some (r_response rec, show_record rec ++ [10]) /\ r_name rec = d_name q /\
    client_send (e_prepare w) (e_net w (tr ++ asked (firstn i calls)) (d_message q)) (d_message q) = Ok (r_request rec, r_response rec, r_time rec, r_error rec) /\
    exists m tr1 s1, to_map (e_host w) (r_response rec) = Ok m /\ asserted w (map expr_of (d_checks q)) (St (Ctx m [] []) tr1) (r_asserts rec) s1.
Definition calls_of (calls : list demand) : list expr := map (fun q => ECall (d_name q) []) calls.
Definition knows (c : ctx) (ds : list demand) : Prop := forall q, In q ds -> mget (d_name q) (c_reqs c) = Some (d_template q, map expr_of (d_checks q)).
Lemma calls_print w vars ds : Forall (fun q => new_name (d_name q) /\ ~ In 96 (d_template q) /\ Forall well_written (d_checks q) /\ filled vars (d_template q) (d_message q)) ds -> serves w ds ->
  forall calls s, incl calls ds -> knows (s_ctx s) ds -> texts_in w (s_ctx s) vars ->
  exists vs recs xs, in_order w (calls_of calls) s vs (St (Ctx (c_vars (s_ctx s)) (c_reqs (s_ctx s)) (c_recs (s_ctx s) ++ recs)) (s_trace s ++ asked calls)) /\
    visit_rightly w (s_trace s) calls xs /\ SpecProcess.lines recs = map (fun x => Printed (snd x)) xs /\ map r_name recs = map d_name calls /\ kept w (s_trace s) calls xs recs.
Proof.
  intros F A. rewrite Forall_forall in F. unfold serves in A. rewrite Forall_forall in A.
  induction calls as [|q calls IH]; intros s I K U.
  - exists [], [], []. split; [destruct s as [[v r c] tr]; cbn; rewrite !app_nil_r; constructor|]. split; [split; [reflexivity|intros [|i] q; discriminate]|split; [reflexivity|split; [reflexivity|split; [reflexivity|intros [|i] q; discriminate]]]].
  - assert (Iq : In q ds) by (apply I; now left). destruct (F q Iq) as (_ & _ & W & Fi). destruct (A q Iq) as [An De].
    destruct (call_prints_named w (d_name q) s _ _ (d_message q) (K q Iq) (texts_message _ _ _ _ _ U Fi) W An (fun rs => De _ rs)) as (v & rec & E & r & H & C & _ & _ & Rn & Rr & Cs & m & sa & Tm & As). rewrite block_one in E.
    set (s1 := St (Ctx (c_vars (s_ctx s)) (c_reqs (s_ctx s)) (c_recs (s_ctx s) ++ [rec])) (s_trace s ++ [Sent (d_message q)])) in *.
    destruct (IH s1) as (vs & recs & xs & O & (L & R) & P & Rns & Kl & Kp); [intros x Hx; apply I; now right|exact K|intros n u X; exact (U n u X)|]. cbn [s1 s_ctx c_vars c_reqs c_recs s_trace] in *.
    exists (v :: vs), (rec :: recs), ((r, show_record rec ++ [10]) :: xs). split; [|split; [|split; [|split]]].
    + cbn [calls_of map]. econstructor; [exact E|]. rewrite <- !app_assoc in O. exact O.
    + split; [cbn [length]; now rewrite L|]. intros [|i] q' N; cbn [nth_error] in *.
      * injection N as <-. exists r, (show_record rec ++ [10]). split; auto. cbn [firstn asked map]. rewrite app_nil_r. auto.
      * destruct (R i q' N) as (r' & text & Nx & H' & C'). exists r', text. split; auto. split; auto. cbn [firstn asked map]. rewrite <- app_assoc in H'. exact H'.
    + cbn [SpecProcess.lines map flat_map snd] in *. unfold SpecProcess.lines in *. cbn [map]. now rewrite P.
    + cbn [map]. now rewrite Rn, Rns.
    + split; [cbn [length]; now rewrite Kl|]. intros [|i] q' N; cbn [nth_error] in *.
      * injection N as <-. exists rec. split; auto. split; [now rewrite Rr|]. split; auto. cbn [firstn asked map]. rewrite app_nil_r, Rr. split; [exact Cs|]. exists m. eexists. exists sa. split; [exact Tm|exact As].
      * destruct (Kp i q' N) as (rec' & A1 & A2 & A3 & A4). exists rec'. split; auto. split; auto. split; auto. cbn [firstn asked map]. rewrite <- app_assoc in A4. exact A4.
Qed.
Lemma test_prints w vars ds calls s : Forall (fun q => new_name (d_name q) /\ ~ In 96 (d_template q) /\ Forall well_written (d_checks q) /\ filled vars (d_template q) (d_message q)) ds -> serves w ds ->
  incl calls ds -> knows (s_ctx s) ds -> texts_in w (s_ctx s) vars -> c_recs (s_ctx s) = [] ->
  exists v recs xs, eval_block w (calls_of calls) s = (Ok v, St (Ctx (c_vars (s_ctx s)) (c_reqs (s_ctx s)) recs) (s_trace s ++ asked calls)) /\
    visit_rightly w (s_trace s) calls xs /\ SpecProcess.lines recs = map (fun x => Printed (snd x)) xs /\ map r_name recs = map d_name calls /\ kept w (s_trace s) calls xs recs.
Proof.
  intros F A I K U Rc. destruct (calls_print w vars ds F A calls s I K U) as (vs & recs & xs & O & R & P). rewrite Rc in O. exists (last vs VNull), recs, xs. split; auto.
  unfold eval_block. exact (exprs_in_order _ _ _ _ _ O VNull).
Qed.

(** ** reading the suite *)
Lemma requests_read ds : Forall (fun q => new_name (d_name q) /\ ~ In 96 (d_template q) /\ Forall well_written (d_checks q)) ds -> exists w,
  (forall rest, segment (flat_map (fun q => request_text (d_name q) (d_template q) (d_checks q)) ds ++ rest) = w ++ segment rest) /\
  forall is w', reads_items is w' -> reads_items (map (fun q => IRequest (d_name q) (d_template q) (map expr_of (d_checks q))) ds ++ is) (w ++ w').
Proof.
  induction 1 as [|q ds (N & T & W) F (w & S & R)]; [exists []; split; auto|]. destruct (request_read _ _ _ N T W) as (wq & Rq & Sq). exists (request_tokens (d_name q) (d_template q) wq ++ w). split.
  - intros rest. cbn [flat_map]. rewrite <- !app_assoc, Sq, S. reflexivity.
  - intros is w' I. cbn [map app]. rewrite <- app_assoc. apply rs_next; [now apply rt_request_asserts|auto].
Qed.
Lemma calls_read calls : Forall (fun q => new_name (d_name q)) calls -> exists w,
  (forall rest, segment (flat_map (fun q => d_name q ++ lit "(); ") calls ++ rest) = w ++ segment rest) /\ reads_block (calls_of calls) w.
Proof.
  induction 1 as [|q calls N F (w & S & R)]; [exists []; split; [auto|constructor]|]. exists ([Tok KIdent (d_name q); op KLp "("; op KRp ")"] ++ op KSemi ";" :: w). split.
  - intros rest. cbn [flat_map]. change (lit "(); ") with [40; 41; 59; 32]. rewrite <- !app_assoc. cbn [app]. rewrite (seg_name (d_name q) 40) by (auto; apply splits_in; vm_compute; tauto).
    rewrite (seg_lone KLp 40) by (vm_compute; tauto). rewrite (seg_lone KRp 41) by (vm_compute; tauto). rewrite (seg_lone KSemi 59) by (vm_compute; tauto). rewrite seg_space. rewrite S. reflexivity.
  - cbn [calls_of map]. apply rb_semi; [apply (rd_call _ (d_name q) [] []); constructor|exact R].
Qed.
Lemma tests_read tests : Forall (fun tc => new_name (fst tc) /\ Forall (fun q => new_name (d_name q)) (snd tc)) tests -> exists w,
  segment (flat_map (fun tc => lit "test " ++ fst tc ++ lit " { " ++ flat_map (fun q => d_name q ++ lit "(); ") (snd tc) ++ lit "}" ++ [10]) tests) = w ++ [Tok KEof []] /\
  reads_items (map (fun tc : str * list demand => ITest (fst tc) (calls_of (snd tc))) tests) w.
Proof.
  induction 1 as [|[t calls] tests (N & C) F (w & S & R)]; [exists []; split; [vm_compute; reflexivity|constructor]|]. cbn [fst snd] in *. destruct (calls_read calls C) as (wc & Sc & Rc).
  exists ((op KTest "test" :: Tok KIdent t :: op KLb "{" :: wc ++ [op KRb "}"]) ++ w). split.
  - cbn [flat_map fst snd]. match type of S with segment ?z = _ => set (others := z) in S |- * end. change (lit "test ") with (lit "test" ++ [32]). rewrite <- !app_assoc. cbn [app]. rewrite (seg_word KTest "test") by (vm_compute; tauto).
    change (lit " { ") with [32; 123; 32]. cbn [app]. rewrite (seg_name t 32) by (auto using splits32). rewrite seg_space, (seg_lone KLb) by (vm_compute; tauto). rewrite seg_space, Sc.
    change (lit "}") with [125]. cbn [app]. rewrite (seg_lone KRb 125) by (vm_compute; tauto). rewrite seg_line, S. rewrite <- !app_assoc. reflexivity.
  - cbn [map fst snd]. apply rs_next; [now apply rt_test|exact R].
Qed.
Lemma last_of {V} (l : list (str * V)) n v : NoDup (map fst l) -> (last_def n l v <-> In (n, v) l).
Proof.
  intros D. split; [intros (a & b & -> & _); apply in_or_app; right; now left|]. intros I. apply in_split in I. destruct I as (a & b & ->). exists a, b. split; auto.
  rewrite map_app in D. cbn [map fst] in D. apply NoDup_remove_2 in D. intros J. apply D, in_or_app. auto.
Qed.
Lemma whole_loads w root vars ds tests : suite_fits vars ds tests -> read_node (fst root) (snd root) = Some (whole_suite vars ds tests) ->
  exists src s1, loads w root src s1 /\ Permutation (s_tests src) (map (fun tc => (fst tc, calls_of (snd tc))) tests) /\ s_ctx s1 = with_vars vars (Ctx [] (mextend [] (s_requests src)) []) /\ knows (s_ctx s1) ds.
Proof.
  intros (V & Nd & D & Nt & T) Rd. destruct (requests_read ds) as (wr & Sr & Rr). { eapply Forall_impl; [|exact D]. cbn. intros q (A & B & C & _). auto. }
  destruct (tests_read tests) as (wt & Sg & Rt).
  { rewrite Forall_forall in *. intros tc I. destruct (T tc I) as [A B]. split; auto. rewrite Forall_forall. intros q J. destruct (D q (B q J)) as (X & _). exact X. }
  assert (S : segment (whole_suite vars ds tests) = (flat_map let_tokens vars ++ wr ++ wt) ++ [Tok KEof []]). { unfold whole_suite. rewrite seg_lets by exact V. rewrite Sr, Sg. now rewrite !app_assoc. }
  pose proof (reads_lets vars _ _ (Rr _ _ Rt)) as J.
  set (text := whole_suite vars ds tests) in *. destruct (proj2 (accepted text)) as [src P]; [eauto|].
  destruct (read_as _ _ _ _ P S J) as (E & M & Tt). rewrite lets_exprs in E. rewrite lets_requests in M. rewrite lets_tests in Tt.
  assert (E0 : item_exprs (map (fun q => IRequest (d_name q) (d_template q) (map expr_of (d_checks q))) ds ++ map (fun tc : str * list demand => ITest (fst tc) (calls_of (snd tc))) tests) = []).
  { clear. induction ds as [|q ds IH]; cbn; auto. induction tests; cbn; auto. }
  assert (E1 : item_requests (map (fun q => IRequest (d_name q) (d_template q) (map expr_of (d_checks q))) ds ++ map (fun tc : str * list demand => ITest (fst tc) (calls_of (snd tc))) tests) = map (fun q => (d_name q, (d_template q, map expr_of (d_checks q)))) ds).
  { clear. unfold item_requests. induction ds as [|q ds IH]; cbn [map app flat_map]; [induction tests; cbn; auto|now rewrite IH]. }
  assert (E2 : item_tests (map (fun q => IRequest (d_name q) (d_template q) (map expr_of (d_checks q))) ds ++ map (fun tc : str * list demand => ITest (fst tc) (calls_of (snd tc))) tests) = map (fun tc => (fst tc, calls_of (snd tc))) tests).
  { clear. unfold item_tests. induction ds as [|q ds IH]; cbn [map app flat_map]; [|exact IH]. induction tests as [|t ts IH]; cbn [map app flat_map]; auto. now rewrite IH. }
  rewrite E0, app_nil_r in E. rewrite E1 in M. rewrite E2 in Tt.
  destruct (lets_eval w vars (Ctx [] (mextend [] (s_requests src)) []) []) as [vs L].
  assert (ND : NoDup (map fst (s_requests src)) /\ NoDup (map fst (s_tests src))) by (apply ParserTop.collected in P; destruct P as (is & u & P); tauto). destruct ND as [ND1 ND2].
  exists src, (St (with_vars vars (Ctx [] (mextend [] (s_requests src)) [])) []). split.
  { exists text. eexists. split; auto. split; auto. rewrite E. unfold eval_block. exact (exprs_in_order _ _ _ _ _ L VNull). }
  split. { apply NoDup_Permutation; [now apply NoDup_map_inv in ND2| |].
    - apply (NoDup_map_inv fst). rewrite map_map. exact Nt.
    - intros [n b]. assert (Nt' : NoDup (map fst (map (fun tc : str * list demand => (fst tc, calls_of (snd tc))) tests))) by (rewrite map_map; exact Nt). rewrite <- (last_of _ _ _ Nt'), <- Tt. split; [apply in_mget; auto|apply mget_some_in]. }
  split; auto. intros q I. cbn [s_ctx with_vars c_reqs]. rewrite extend_get by auto.
  assert (G : mget (d_name q) (s_requests src) = Some (d_template q, map expr_of (d_checks q))).
  { apply M. apply last_of; [rewrite map_map; exact Nd|]. apply in_map_iff. exists q. auto. } now rewrite G.
Qed.

(** ** a run *)
Lemma visits_app calls a b : visits_events calls (a ++ b) = visits_events calls a ++ visits_events calls b.
Proof. apply flat_map_app. Qed.
Lemma whole_iterated w vars ds c calls : Forall (fun q => new_name (d_name q) /\ ~ In 96 (d_template q) /\ Forall well_written (d_checks q) /\ filled vars (d_template q) (d_message q)) ds -> serves w ds ->
  incl calls ds -> knows c ds -> texts_in w c vars ->
  forall k s bs, iterated w (calls_of calls) c k s bs -> c_reqs (s_ctx s) = c_reqs c /\ c_recs (s_ctx s) = [] /\ c_vars (s_ctx s) = c_vars c /\
    exists vs, N.of_nat (length vs) = k /\ s_trace s = visits_events calls vs /\ visits_rightly w calls vs /\
      length bs = length vs /\ forall past xs rest, vs = past ++ xs :: rest -> exists recs, nth_error bs (length past) = Some recs /\ kept w (visits_events calls past) calls xs recs.
Proof.
  intros F A I K U. induction 1 as [|k s bs v s1 It (R & Rc & Vs & vs & L & Tr & Lk & Lb & Kb) E].
  - repeat split; auto. exists []. repeat split; destruct past; discriminate.
  - destruct (test_prints w vars ds calls s F A I ltac:(unfold knows; rewrite R; exact K) (same_vars _ _ _ _ U Vs) Rc) as (v' & recs & xs & E' & Q & P & _ & Kp).
    rewrite E in E'. injection E' as _ ->. cbn [s_ctx c_reqs c_recs s_trace c_vars]. split; [congruence|]. split; auto. split; [congruence|].
    exists (vs ++ [xs]). split; [rewrite app_length; cbn [length]; lia|]. split.
    { rewrite visits_app, <- Tr. unfold SpecProcess.lines in P. rewrite P, <- app_assoc. cbn [visits_events flat_map]. now rewrite app_nil_r. }
    split.
    { intros past xs' rest E'. destruct rest as [|z rest _] using rev_ind.
      + apply app_inj_tail in E'. destruct E' as [-> ->]. rewrite <- Tr. exact Q.
      + rewrite app_comm_cons, app_assoc in E'. apply app_inj_tail in E'. destruct E' as [E' _]. now apply (Lk past xs' rest). }
    split; [rewrite !app_length; cbn [length]; now rewrite Lb|]. intros past xs' rest E'. destruct rest as [|z rest _] using rev_ind.
    + apply app_inj_tail in E'. destruct E' as [-> ->]. exists recs. split; [rewrite nth_error_app2, <- Lb, Nat.sub_diag; [reflexivity|lia]|rewrite <- Tr; exact Kp].
    + rewrite app_comm_cons, app_assoc in E'. apply app_inj_tail in E'. destruct E' as [E' _]. destruct (Kb past xs' rest E') as (recs' & N & Kp'). exists recs'. split; [|exact Kp'].
      rewrite nth_error_app1; [exact N|]. apply nth_error_Some. rewrite N. discriminate.
Qed.
Theorem whole_named iter w root threads duration number record pod d g vars ds tests t calls q : suite_fits vars ds tests -> In (t, calls) tests ->
  read_node (fst root) (snd root) = Some (whole_suite vars ds tests) -> threads <> 0 ->
  goes g (launch iter w root (Some t) threads duration number record pod d) q -> p_main q = Gone true -> (forall id, serves (g_world g id) ds) ->
  forall id, id < threads -> exists vs, events_of (Tester id) (p_log q) = visits_events calls vs /\ visits_rightly (g_world g id) calls vs /\
    N.of_nat (length vs) <= share duration number threads /\ (p_flag q = true -> N.of_nat (length vs) = share duration number threads).
Proof.
  intros S Hin Rd Th G Gn Sv id I. destruct (whole_loads w root vars ds tests S Rd) as (src & s1 & L & B & C & K). destruct S as (V & Nd & D & Nt & T).
  assert (Ic : incl calls ds) by (rewrite Forall_forall in T; exact (proj2 (T _ Hin))).
  assert (U : forall w', texts_in w' (s_ctx s1) vars). { intros w' n u Tx. rewrite C. now apply shown_text. }
  assert (Bt : mget t (s_tests src) = Some (calls_of calls)).
  { apply in_mget; [eapply Permutation_NoDup; [apply Permutation_map, Permutation_sym, B|rewrite map_map; exact Nt]|]. eapply Permutation_in; [apply Permutation_sym, B|]. apply in_map_iff. exists (t, calls). auto. }
  destruct (named_end iter w root t threads duration number record pod d g src s1 _ q L Bt Th G Gn) as (bss & Lb & H & _).
  destruct (nth_error bss (N.to_nat id)) as [bs|] eqn:Nb. 2: { apply nth_error_None in Nb. lia. }
  destruct (H id bs Nb) as [(s & It & Le & Y) _].
  destruct (whole_iterated _ _ _ _ _ D (Sv id) Ic K (U (g_world g id)) _ _ _ It) as (R & Rc & Vs & vs & Lr & Et & Rp & _).
  destruct Y as [[-> Y]|(Lt & o & s2 & E & O & _)].
  - exists vs. split; auto. split; auto. rewrite Lr. split; auto. intros Fg. rewrite Fg in Y. destruct Y as [Y|Y]; [auto|discriminate].
  - destruct (test_prints _ vars ds calls s D (Sv id) Ic ltac:(unfold knows; rewrite R; exact K) (same_vars _ _ _ _ (U _) Vs) Rc) as (v' & recs & xs & E' & _).
    rewrite E in E'. injection E' as -> _. destruct O as [O|[e O]]; discriminate.
Qed.
Theorem whole_all iter w root threads duration number record pod d g vars ds tests q : (forall l, Permutation (iter l) l) -> suite_fits vars ds tests -> N.of_nat (length tests) <= 2 ^ 32 ->
  read_node (fst root) (snd root) = Some (whole_suite vars ds tests) ->
  goes g (launch iter w root None threads duration number record pod d) q -> p_main q = Gone true -> (forall id, serves (g_world g id) ds) ->
  exists order, Permutation order tests /\
    (forall id t calls, nth_error order (N.to_nat id) = Some (t, calls) -> exists xs, events_of (Tester id) (p_log q) = visit_events calls xs /\ visit_rightly (g_world g id) [] calls xs) /\
    forall id, N.of_nat (length tests) <= id -> events_of (Tester id) (p_log q) = [].
Proof.
  intros Pi S Le Rd G Gn Sv. destruct (whole_loads w root vars ds tests S Rd) as (src & s1 & L & B & C & K). destruct S as (V & Nd & D & Nt & T).
  assert (U : forall w', texts_in w' (s_ctx s1) vars). { intros w' n u Tx. rewrite C. now apply shown_text. }
  pose proof (Permutation_trans (Pi (s_tests src)) B) as Bi. assert (Ln : length (iter (s_tests src)) = length tests) by (rewrite (Permutation_length Bi), map_length; reflexivity).
  destruct (Permutation_map_inv _ _ Bi) as (order & Eo & Po). exists order. split; [now apply Permutation_sym|]. split.
  - intros id t calls N. assert (N' : nth_error (iter (s_tests src)) (N.to_nat id) = Some (t, calls_of calls)) by (rewrite Eo, nth_error_map, N; reflexivity).
    destruct (all_threads iter w root threads duration number record pod d g src s1 q id t _ L ltac:(now rewrite Ln) N' G) as (o & s2 & E & _ & Ow & _). destruct (Ow Gn) as [-> _].
    assert (It : In (t, calls) tests) by (eapply Permutation_in; [apply Permutation_sym, Po|]; eapply nth_error_In; exact N). rewrite Forall_forall in T. destruct (T _ It) as [_ Ic]. cbn [snd] in Ic.
    destruct (test_prints (g_world g id) vars ds calls (St (Ctx (c_vars (s_ctx s1)) (c_reqs (s_ctx s1)) []) []) D (Sv id) Ic) as (v & recs & xs & E' & Q & P & _); [exact K|intros n u X; exact (U _ n u X)|reflexivity|].
    rewrite E in E'. injection E' as -> ->. exists xs. split; auto. cbn [s_trace s_ctx c_recs afterwards_once app]. now rewrite P.
  - intros id Hid. destruct (all_log iter w root threads duration number record pod d g src s1 q L ltac:(now rewrite Ln) G) as (_ & Z & _). apply Z. now rewrite Ln.
Qed.
Theorem whole_ends iter w root name threads duration number record pod d g vars ds tests p : (forall l, Permutation (iter l) l) -> suite_fits vars ds tests -> N.of_nat (length tests) <= 2 ^ 32 ->
  read_node (fst root) (snd root) = Some (whole_suite vars ds tests) -> (forall t, name = Some t -> In t (map fst tests) /\ threads <> 0) -> (record = true -> forall path, g_creates g path = true) ->
  (forall id, serves (g_world g id) ds) -> goes g (launch iter w root name threads duration number record pod d) p -> exists p', goes g p p' /\ p_main p' = Gone true.
Proof.
  intros Pi S Le Rd Nm Cr Sv G. destruct (whole_loads w root vars ds tests S Rd) as (src & s1 & L & B & C & K). destruct S as (V & Nd & D & Nt & T).
  assert (U : forall w', texts_in w' (s_ctx s1) vars). { intros w' n u Tx. rewrite C. now apply shown_text. }
  assert (X : exists p' b, goes g p p' /\ p_main p' = Gone b /\ p_main p' <> Gone false).
  { destruct name as [t|].
    - destruct (Nm t eq_refl) as [It Th]. apply in_map_iff in It. destruct It as ([t' calls] & Et & It). cbn in Et. subst t'. assert (Ic : incl calls ds) by (rewrite Forall_forall in T; exact (proj2 (T _ It))).
      assert (Bt : mget t (s_tests src) = Some (calls_of calls)).
      { apply in_mget; [eapply Permutation_NoDup; [apply Permutation_map, Permutation_sym, B|rewrite map_map; exact Nt]|]. eapply Permutation_in; [apply Permutation_sym, B|]. apply in_map_iff. exists (t, calls). auto. }
      destruct (named_ends iter w root t threads duration number record pod d g p src s1 _ L Bt) as (p' & b & G' & E & _); auto.
      + intros id k s bs _ _ It'. destruct (whole_iterated _ _ _ _ _ D (Sv id) Ic K (U (g_world g id)) _ _ _ It') as (R & Rc & Vs & _).
        destruct (test_prints _ vars ds calls s D (Sv id) Ic ltac:(unfold knows; rewrite R; exact K) (same_vars _ _ _ _ (U _) Vs) Rc) as (v' & recs & xs & -> & _). discriminate.
      + exists p', b. split; auto. split; auto. apply (exit_named iter w root t threads duration number record pod d g p' src s1 _ L Bt Th); [intros R id _; now apply Cr|exact (goes_trans _ _ _ _ G G')].
    - pose proof (Permutation_trans (Pi (s_tests src)) B) as Bi. assert (Ln : length (iter (s_tests src)) = length tests) by (rewrite (Permutation_length Bi), map_length; reflexivity).
      destruct (all_ends iter w root threads duration number record pod d g p src s1 L) as (p' & b & G' & E & _); auto; [now rewrite Ln| |].
      + intros id t body N. assert (It : In (t, body) (map (fun tc : str * list demand => (fst tc, calls_of (snd tc))) tests)) by (eapply Permutation_in; [exact Bi|]; eapply nth_error_In; exact N).
        apply in_map_iff in It. destruct It as ([t' calls] & Et & It). injection Et as -> <-. rewrite Forall_forall in T. destruct (T _ It) as [_ Ic]. cbn [snd] in *.
        destruct (test_prints (g_world g id) vars ds calls (St (Ctx (c_vars (s_ctx s1)) (c_reqs (s_ctx s1)) []) []) D (Sv id) Ic) as (v & recs & xs & -> & _); [exact K|intros n u X; exact (U _ n u X)|reflexivity|discriminate].
      + exists p', b. split; auto. split; auto. apply (exit_all iter w root threads duration number record pod d g p' src s1 L); [now rewrite Ln|intros R id _; now apply Cr|exact (goes_trans _ _ _ _ G G')]. }
  destruct X as (p' & b & G' & E & N). exists p'. split; auto. destruct b; congruence.
Qed.
