(** Proofs about what reports depend on, and about requests that got no response. *)
From Verif Require Import TextProofs EvaluatorProofs EvaluatorTop DurationProofs ConnectProofs SuiteProofs PrintsProofs ChainProofs BranchProofs WholeProofs ProcessTop ProcessOnce ProcessRun ProcessProofs ProcessEnds ProcessLaunch SpecProcess SpecLayout SpecMute.
From Coq Require Import Lia.
Open Scope N_scope.

(** ** what a report says *)
Definition saying (h : host) (q : demand) (r : response) : str :=
  match to_map h r with
  | Ok m =>
      match eval_asserts h (eval h (native_call h)) (map expr_of (d_checks q)) (St (Ctx m [] []) []) with
      | (Ok as_, _) => lit "=== TEST  " ++ d_name q ++ [10] ++ flat_map show_assert_line as_ ++ lit "--- " ++ (if fold_left (fun f a => f && a_result a) as_ true then lit "PASS" else lit "FAIL") ++ lit "  " ++ d_name q
      | _ => []
      end
  | _ => []
  end.
Lemma record_said w q rec m tr1 s1 : r_name rec = d_name q -> to_map (e_host w) (r_response rec) = Ok m -> asserted w (map expr_of (d_checks q)) (St (Ctx m [] []) tr1) (r_asserts rec) s1 ->
  show_record rec ++ [10] = with_duration (saying (e_host w) q (r_response rec)) (show_duration (t_total (r_time rec))).
Proof.
  intros N M A. apply asserts_iff in A; [|reflexivity]. unfold saying. rewrite M.
  destruct (asserts_local (e_host w) (eval_native w) (eval_native_local w) (map expr_of (d_checks q)) (Ctx m [] []) eq_refl) as (o & c' & pr & _ & _ & _ & H).
  rewrite H in A. injection A as -> _. specialize (H []). unfold eval_native in H. rewrite H. unfold with_duration, show_record, passed. rewrite N, <- !app_assoc. reflexivity.
Qed.
Lemma kept_said w tr calls xs recs : kept w tr calls xs recs -> said_so (saying (e_host w)) calls xs.
Proof.
  intros [L K] i q r text Nq Nx. destruct (K i q Nq) as (rec & _ & X & Nm & _ & m & tr1 & s1 & M & A). rewrite Nx in X. injection X as -> ->.
  exists (t_total (r_time rec)), (show_duration (t_total (r_time rec))). split; [apply show_duration_text|]. exact (record_said _ _ _ _ _ _ Nm M A).
Qed.

(** ** runs, with the records *)
Lemma named_kept_visits iter w root threads duration number record pod d g vars ds tests t calls q : suite_fits vars ds tests -> In (t, calls) tests ->
  read_node (fst root) (snd root) = Some (whole_suite vars ds tests) -> threads <> 0 ->
  goes g (launch iter w root (Some t) threads duration number record pod d) q -> p_main q = Gone true -> (forall id, serves (g_world g id) ds) ->
  forall id, id < threads -> exists vs, events_of (Tester id) (p_log q) = visits_events calls vs /\ visits_rightly (g_world g id) calls vs /\
    N.of_nat (length vs) <= share duration number threads /\ (p_flag q = true -> N.of_nat (length vs) = share duration number threads) /\
    forall xs, In xs vs -> exists tr recs, kept (g_world g id) tr calls xs recs.
Proof.
  intros S Hin Rd Th G Gn Sv id I. destruct (whole_loads w root vars ds tests S Rd) as (src & s1 & L & B & C & K). destruct S as (V & Nd & D & Nt & T).
  assert (Ic : incl calls ds) by (rewrite Forall_forall in T; exact (proj2 (T _ Hin))).
  assert (U : forall w', texts_in w' (s_ctx s1) vars). { intros w' n u Tx. rewrite C. now apply shown_text. }
  assert (Bt : mget t (s_tests src) = Some (calls_of calls)).
  { apply in_mget; [eapply Permutation_NoDup; [apply Permutation_map, Permutation_sym, B|rewrite map_map; exact Nt]|]. eapply Permutation_in; [apply Permutation_sym, B|]. apply in_map_iff. exists (t, calls). auto. }
  destruct (named_end iter w root t threads duration number record pod d g src s1 _ q L Bt Th G Gn) as (bss & Lb & H & _).
  destruct (nth_error bss (N.to_nat id)) as [bs|] eqn:Nb. 2: { apply nth_error_None in Nb. lia. }
  destruct (H id bs Nb) as [(s & It & Le & Y) _].
  destruct (whole_iterated _ _ _ _ _ D (Sv id) Ic K (U (g_world g id)) _ _ _ It) as (R & Rc & Vs & vs & Lr & Et & Rp & _ & Kp).
  destruct Y as [[-> Y]|(Lt & o & s2 & E & O & _)].
  - exists vs. split; auto. split; auto. rewrite Lr. split; auto. split. { intros Fg. rewrite Fg in Y. destruct Y as [Y|Y]; [auto|discriminate]. }
    intros xs Ix. apply in_split in Ix. destruct Ix as (past & rest & Ev). destruct (Kp _ _ _ Ev) as (recs & _ & X). eauto.
  - destruct (test_prints _ vars ds calls s D (Sv id) Ic ltac:(unfold knows; rewrite R; exact K) (same_vars _ _ _ _ (U _) Vs) Rc) as (v' & recs & xs & E' & _).
    rewrite E in E'. injection E' as -> _. destruct O as [O|[e O]]; discriminate.
Qed.
Lemma all_kept_visits iter w root threads duration number record pod d g vars ds tests q : (forall l, Permutation (iter l) l) -> suite_fits vars ds tests -> N.of_nat (length tests) <= 2 ^ 32 ->
  read_node (fst root) (snd root) = Some (whole_suite vars ds tests) ->
  goes g (launch iter w root None threads duration number record pod d) q -> p_main q = Gone true -> (forall id, serves (g_world g id) ds) ->
  exists order, Permutation order tests /\
    (forall id t calls, nth_error order (N.to_nat id) = Some (t, calls) -> exists xs recs, events_of (Tester id) (p_log q) = visit_events calls xs /\ visit_rightly (g_world g id) [] calls xs /\ kept (g_world g id) [] calls xs recs).
Proof.
  intros Pi S Le Rd G Gn Sv. destruct (whole_loads w root vars ds tests S Rd) as (src & s1 & L & B & C & K). destruct S as (V & Nd & D & Nt & T).
  assert (U : forall w', texts_in w' (s_ctx s1) vars). { intros w' n u Tx. rewrite C. now apply shown_text. }
  pose proof (Permutation_trans (Pi (s_tests src)) B) as Bi. assert (Ln : length (iter (s_tests src)) = length tests) by (rewrite (Permutation_length Bi), map_length; reflexivity).
  destruct (Permutation_map_inv _ _ Bi) as (order & Eo & Po). exists order. split; [now apply Permutation_sym|].
  intros id t calls N. assert (N' : nth_error (iter (s_tests src)) (N.to_nat id) = Some (t, calls_of calls)) by (rewrite Eo, nth_error_map, N; reflexivity).
  destruct (all_threads iter w root threads duration number record pod d g src s1 q id t _ L ltac:(now rewrite Ln) N' G) as (o & s2 & E & _ & Ow & _). destruct (Ow Gn) as [-> _].
  assert (It : In (t, calls) tests) by (eapply Permutation_in; [apply Permutation_sym, Po|]; eapply nth_error_In; exact N). rewrite Forall_forall in T. destruct (T _ It) as [_ Ic]. cbn [snd] in Ic.
  destruct (test_prints (g_world g id) vars ds calls (St (Ctx (c_vars (s_ctx s1)) (c_reqs (s_ctx s1)) []) []) D (Sv id) Ic) as (v & recs & xs & E' & Q & P & _ & Kp); [exact K|intros n u X; exact (U _ n u X)|reflexivity|].
  rewrite E in E'. injection E' as -> ->. exists xs, recs. split; [cbn [s_trace s_ctx c_recs afterwards_once app]; now rewrite P|]. split; auto.
Qed.

(** ** reports depend on the response *)
Theorem same_named h : exists said, forall iter w root threads duration number record pod d g vars ds tests t calls q, suite_fits vars ds tests -> In (t, calls) tests ->
  read_node (fst root) (snd root) = Some (whole_suite vars ds tests) -> threads <> 0 ->
  goes g (launch iter w root (Some t) threads duration number record pod d) q -> p_main q = Gone true -> (forall id, serves (g_world g id) ds) ->
  forall id, id < threads -> e_host (g_world g id) = h ->
  exists vs, events_of (Tester id) (p_log q) = visits_events calls vs /\ visits_rightly (g_world g id) calls vs /\ Forall (said_so said calls) vs.
Proof.
  exists (saying h). intros iter w root threads duration number record pod d g vars ds tests t calls q S Hin Rd Th G Gn Sv id I Eh.
  destruct (named_kept_visits iter w root threads duration number record pod d g vars ds tests t calls q S Hin Rd Th G Gn Sv id I) as (vs & E & Rp & _ & _ & Kp). exists vs. split; auto. split; auto.
  apply Forall_forall. intros xs Ix. destruct (Kp xs Ix) as (tr & recs & X). rewrite <- Eh. exact (kept_said _ _ _ _ _ X).
Qed.
Theorem same_all h : exists said, forall iter w root threads duration number record pod d g vars ds tests q, (forall l, Permutation (iter l) l) -> suite_fits vars ds tests -> N.of_nat (length tests) <= 2 ^ 32 ->
  read_node (fst root) (snd root) = Some (whole_suite vars ds tests) ->
  goes g (launch iter w root None threads duration number record pod d) q -> p_main q = Gone true -> (forall id, serves (g_world g id) ds) -> (forall id, e_host (g_world g id) = h) ->
  exists order, Permutation order tests /\
    forall id t calls, nth_error order (N.to_nat id) = Some (t, calls) ->
      exists xs, events_of (Tester id) (p_log q) = visit_events calls xs /\ visit_rightly (g_world g id) [] calls xs /\ said_so said calls xs.
Proof.
  exists (saying h). intros iter w root threads duration number record pod d g vars ds tests q Pi S Le Rd G Gn Sv Eh.
  destruct (all_kept_visits iter w root threads duration number record pod d g vars ds tests q Pi S Le Rd G Gn Sv) as (order & Po & H). exists order. split; auto. intros id t calls N.
  destruct (H id t calls N) as (xs & recs & E & Rp & X). exists xs. split; auto. split; auto. rewrite <- (Eh id). exact (kept_said _ _ _ _ _ X).
Qed.

(** ** no response *)
Theorem mute_exchange prepare x msg : ordered x -> mute x -> exists t e, client_send prepare x msg = Ok (fst (request_from prepare msg), nothing, t, report e) /\ t_total t = 0.
Proof.
  intros O M. destruct (send_outcome prepare x msg O) as (t & E & _ & _ & Z). exists t.
  destruct M as [(e & C)|[(d & e & C & W)|(d & e & C & W & R)]]; exists e; rewrite E, C; try rewrite W; try rewrite R; (split; [reflexivity|]); destruct Z as (_ & Z & _); auto; intros (d' & rs & X & Y & T); congruence.
Qed.
Lemma nothing_map h : exists m, to_map h nothing = Ok m.
Proof. eexists. unfold to_map. assert (P : parse (rs_body nothing) = Ok (Source [] [] [])) by (vm_compute; reflexivity). rewrite P. reflexivity. Qed.
Theorem mute_serves w ds : unreachable w -> serves w ds.
Proof.
  intros U. unfold serves. apply Forall_forall. intros q _. split.
  - intros tr. destruct (U tr (d_message q)) as [O M]. destruct (mute_exchange (e_prepare w) _ (d_message q) O M) as (t & e & E & _). destruct (nothing_map (e_host w)) as [m Hm]. do 5 eexists. split; [exact E|exact Hm].
  - intros tr rs (rq & t & er & E). destruct (U tr (d_message q)) as [O M]. destruct (mute_exchange (e_prepare w) _ (d_message q) O M) as (t' & e & E' & _). rewrite E in E'. injection E' as _ -> _ _.
    apply Forall_forall. intros c _ _. right. exists []. split; [constructor|]. left. reflexivity.
Qed.
Lemma vain_kept w tr calls xs recs : unreachable w -> kept w tr calls xs recs -> length xs = length calls -> visit_events calls xs = vain_visit (saying (e_host w)) calls /\
  forall i q, nth_error calls i = Some q -> nth_error xs i = Some (nothing, with_duration (saying (e_host w) q nothing) (lit "0ns")).
Proof.
  intros U [L K] Lx. assert (X : forall i q, nth_error calls i = Some q -> nth_error xs i = Some (nothing, with_duration (saying (e_host w) q nothing) (lit "0ns"))).
  { intros i q N. destruct (K i q N) as (rec & _ & Nx & Nm & C & m & tr1 & s1 & M & A). destruct (U (tr ++ asked (firstn i calls)) (d_message q)) as [O Mu].
    destruct (mute_exchange (e_prepare w) _ (d_message q) O Mu) as (t & e & E & Z). rewrite E in C. injection C as _ Er Et _. rewrite Nx, (record_said _ _ _ _ _ _ Nm M A), <- Er, <- Et, Z. reflexivity. }
  split; auto. unfold visit_events, vain_visit. f_equal. clear -X Lx. rename X into Y.
  revert xs Lx Y. induction calls as [|q calls IH]; intros [|x xs] Lx Y; try discriminate; auto. cbn [map]. f_equal; [|apply IH; [now injection Lx|intros i; exact (Y (S i))]].
  specialize (Y 0%nat q eq_refl). cbn in Y. injection Y as ->. reflexivity.
Qed.
Theorem vain_run h : exists said, forall iter w root threads duration number record pod d g vars ds tests t calls q, suite_fits vars ds tests -> In (t, calls) tests ->
  read_node (fst root) (snd root) = Some (whole_suite vars ds tests) -> threads <> 0 ->
  goes g (launch iter w root (Some t) threads duration number record pod d) q -> p_main q = Gone true -> (forall id, unreachable (g_world g id) /\ e_host (g_world g id) = h) ->
  forall id, id < threads -> exists n, events_of (Tester id) (p_log q) = List.concat (repeat (vain_visit said calls) n) /\
    N.of_nat n <= share duration number threads /\ (p_flag q = true -> N.of_nat n = share duration number threads) /\
    (n <> O -> forall x, In x calls -> check_report nothing (d_name x) (d_checks x) (with_duration (said x nothing) (lit "0ns"))).
Proof.
  exists (saying h). intros iter w root threads duration number record pod d g vars ds tests t calls q S Hin Rd Th G Gn Un id I. destruct (Un id) as [U Eh].
  destruct (named_kept_visits iter w root threads duration number record pod d g vars ds tests t calls q S Hin Rd Th G Gn (fun id => mute_serves _ _ (proj1 (Un id))) id I) as (vs & E & Rp & Le & Fu & Kp).
  assert (V : forall xs, In xs vs -> visit_events calls xs = vain_visit (saying h) calls /\ forall i q, nth_error calls i = Some q -> nth_error xs i = Some (nothing, with_duration (saying h q nothing) (lit "0ns"))).
  { intros xs Ix. destruct (Kp xs Ix) as (tr & recs & X). rewrite <- Eh. apply (vain_kept _ _ _ _ _ U X). apply in_split in Ix. destruct Ix as (past & rest & Ev). exact (proj1 (Rp _ _ _ Ev)). }
  exists (length vs). split; [|split; [exact Le|split; [exact Fu|]]].
  - rewrite E. unfold visits_events. clear -V. induction vs as [|xs vs IH]; auto. cbn [flat_map length repeat List.concat]. rewrite IH by (intros; apply V; now right). now rewrite (proj1 (V xs (or_introl eq_refl))).
  - destruct vs as [|xs vs]; [contradiction|]. intros _ x Ix. apply In_nth_error in Ix. destruct Ix as [i Ix]. destruct (Rp [] xs vs eq_refl) as [_ R]. destruct (R i x Ix) as (r & text & Nx & _ & Ch).
    rewrite (proj2 (V xs (or_introl eq_refl)) i x Ix) in Nx. injection Nx as <- <-. exact Ch.
Qed.
Theorem vain_all h : exists said, forall iter w root threads duration number record pod d g vars ds tests q, (forall l, Permutation (iter l) l) -> suite_fits vars ds tests -> N.of_nat (length tests) <= 2 ^ 32 ->
  read_node (fst root) (snd root) = Some (whole_suite vars ds tests) ->
  goes g (launch iter w root None threads duration number record pod d) q -> p_main q = Gone true -> (forall id, unreachable (g_world g id) /\ e_host (g_world g id) = h) ->
  exists order, Permutation order tests /\
    forall id t calls, nth_error order (N.to_nat id) = Some (t, calls) -> events_of (Tester id) (p_log q) = vain_visit said calls /\
      forall x, In x calls -> check_report nothing (d_name x) (d_checks x) (with_duration (said x nothing) (lit "0ns")).
Proof.
  exists (saying h). intros iter w root threads duration number record pod d g vars ds tests q Pi S Le Rd G Gn Un.
  destruct (all_kept_visits iter w root threads duration number record pod d g vars ds tests q Pi S Le Rd G Gn (fun id => mute_serves _ _ (proj1 (Un id)))) as (order & Po & H). exists order. split; auto. intros id t calls N.
  destruct (H id t calls N) as (xs & recs & E & Rp & X). destruct (Un id) as [U Eh]. destruct (vain_kept _ _ _ _ _ U X (proj1 Rp)) as [V W]. rewrite Eh in V, W. split; [congruence|].
  intros x Ix. apply In_nth_error in Ix. destruct Ix as [i Ix]. destruct (proj2 Rp i x Ix) as (r & text & Nx & _ & Ch). rewrite (W i x Ix) in Nx. injection Nx as <- <-. exact Ch.
Qed.
Theorem vain_ends iter w root name threads duration number record pod d g vars ds tests p : (forall l, Permutation (iter l) l) -> suite_fits vars ds tests -> N.of_nat (length tests) <= 2 ^ 32 ->
  read_node (fst root) (snd root) = Some (whole_suite vars ds tests) -> (forall t, name = Some t -> In t (map fst tests) /\ threads <> 0) -> (record = true -> forall path, g_creates g path = true) ->
  (forall id, unreachable (g_world g id)) -> goes g (launch iter w root name threads duration number record pod d) p -> exists p', goes g p p' /\ p_main p' = Gone true.
Proof.
  intros Pi S Le Rd Nm Cr Un G. exact (whole_ends iter w root name threads duration number record pod d g vars ds tests p Pi S Le Rd Nm Cr (fun id => mute_serves _ _ (Un id)) G).
Qed.
