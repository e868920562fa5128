(** Proofs about the record files of a run of a suite. *)
From Verif Require Import TextProofs TextMore EvaluatorProofs EvaluatorTop SuiteProofs PrintsProofs ChainProofs BranchProofs WholeProofs RunMore RecordProofs ContainerProofs ProcessTop ProcessOnce ProcessRun ProcessProofs ProcessEnds ProcessLaunch SpecProcess SpecLayout SpecFiled.
From Coq Require Import Lia.
Open Scope N_scope.

(** ** statuses *)
Lemma u16_small s : parse_u16 s < 2 ^ 16.
Proof.
  destruct s as [s|]; [|reflexivity]. cbn [parse_u16]. destruct (parse_unsigned u16_max s) as [n|] eqn:E; [|reflexivity].
  apply parse_unsigned_iff in E. destruct E as (ds & _ & _ & _ & E). unfold u16_max in E. change (2 ^ 16) with 65536. lia.
Qed.
Lemma from_small r rs : response_from r = inl rs -> rs_status rs < 2 ^ 16.
Proof. unfold response_from. intros H. repeat match type of H with context [match ?x with _ => _ end] => destruct x; try discriminate H end. all: injection H as <-; apply u16_small. Qed.
Lemma status_small p x msg rq rs t er : client_send p x msg = Ok (rq, rs, t, er) -> rs_status rs < 2 ^ 16.
Proof.
  unfold client_send. destruct (request_from p msg) as [q c]. destruct (x_connect x); [|intros H; injection H as _ <- _ _; reflexivity]. destruct (dur_sub _ _); [|discriminate].
  destruct (x_write x); [intros H; injection H as _ <- _ _; reflexivity|]. destruct (response_from (x_reply x)) as [rs'|] eqn:E; [|intros H; injection H as _ <- _ _; reflexivity].
  intros H. repeat match type of H with context [dur_sub ?a ?b] => destruct (dur_sub a b); [|discriminate H] end. injection H as _ <- _ _. exact (from_small _ _ E).
Qed.
Lemma kept_fits w tr calls xs recs : quick w -> kept w tr calls xs recs -> Forall SpecWriter.fits recs.
Proof.
  intros Q [L K]. apply Forall_forall. intros rec I. apply In_nth_error in I. destruct I as [i I]. assert (Hi : (i < length recs)%nat) by (apply nth_error_Some; rewrite I; discriminate).
  destruct (nth_error calls i) as [q|] eqn:N. 2: { apply nth_error_None in N. lia. }
  destruct (K i q N) as (rec' & I' & _ & _ & C & _). rewrite I in I'. injection I' as <-. split; [exact (Q _ _ _ _ _ _ C)|exact (status_small _ _ _ _ _ _ _ C)].
Qed.

(** ** blocks *)
Lemma record_report rec : report_on (r_name rec) (r_asserts rec) (t_total (r_time rec)) (show_record rec ++ [10]).
Proof.
  destruct (verdict rec) as (v & d & D & Sh & P & N). exists v, d. split; [rewrite Sh, <- !app_assoc; reflexivity|]. split; auto.
  destruct (existsb (fun a => negb (a_result a)) (r_asserts rec)) eqn:X.
  - right. apply existsb_exists in X. destruct X as (a & J & X). assert (Ra : a_result a = false) by now destruct (a_result a). split; [apply Exists_exists; eauto|apply N; eauto].
  - left. assert (Y : forall a, In a (r_asserts rec) -> a_result a = true).
    { intros a J. destruct (a_result a) eqn:Ra; auto. assert (Z : existsb (fun a => negb (a_result a)) (r_asserts rec) = true) by (apply existsb_exists; exists a; rewrite Ra; auto). congruence. }
    split; [now apply Forall_forall|now apply P].
Qed.
Lemma combine_nth_seq {A} (l : list A) a i x : nth_error l i = Some x -> nth_error (combine (seq a (length l)) l) i = Some ((a + i)%nat, x).
Proof. revert a i. induction l as [|y l IH]; intros a [|i] H; try discriminate; cbn in *; [injection H as ->; f_equal; f_equal; lia|]. rewrite (IH (S a) i H). f_equal. f_equal. lia. Qed.
Lemma batch_nth t id k recs i rec : nth_error recs i = Some rec -> nth_error (d_batch t id k recs) i = Some (d_record t id k (N.of_nat i) rec).
Proof. intros H. unfold d_batch. rewrite nth_error_map, (combine_nth_seq recs 0 i rec H). reflexivity. Qed.
Lemma kept_block w tr t id k calls xs recs blk : kept w tr calls xs recs -> fst blk = Z.of_nat (length recs) -> items Counted record_ty (snd blk) (d_batch t id k recs) -> block_tells w tr t id k calls xs blk.
Proof.
  intros [L K] F I. split; [now rewrite F, L|]. exists (d_batch t id k recs). split; auto. split; [unfold d_batch; rewrite map_length, combine_length, seq_length, Nat.min_id; exact L|].
  intros i q N. destruct (K i q N) as (rec & R & X & Nm & C & _). exists (r_response rec), (show_record rec ++ [10]), (d_record t id k (N.of_nat i) rec). split; auto. split; [now apply batch_nth|].
  exists (r_request rec), (r_time rec), (r_error rec), (r_asserts rec). split; auto. rewrite <- Nm. split; [destruct rec; reflexivity|apply record_report].
Qed.

(** ** files *)
Lemma recorded_file g path name id bs : g_accepts g path = [] -> id < 2 ^ 32 -> N.of_nat (length bs) <= 2 ^ 32 -> Forall (Forall SpecWriter.fits) bs -> small (recorded g path name id bs) ->
  exists kvs sync blks, container (recorded g path name id bs) kvs sync blks /\ describes kvs record_ty /\ length blks = length bs /\
  forall k rs, nth_error bs k = Some rs -> exists blk, nth_error blks k = Some blk /\ fst blk = Z.of_nat (length rs) /\ items Counted record_ty (snd blk) (d_batch name id (N.of_nat k) rs).
Proof.
  intros A I L Fi Sm. destruct (recorded_holds g path name id bs A I L Fi Sm) as (kvs & sync & blks & Ct & Lb & H). exists kvs, sync, blks. split; auto. split.
  - revert Ct Sm. unfold recorded. rewrite A. intros Ct Sm. change (write_batches (writer_new []) (numbered name id bs)) with (written [] (numbered name id bs)) in *.
    assert (Fb : Forall fits_batch (numbered name id bs)).
    { apply Forall_forall. intros b B. apply In_nth_error in B. destruct B as (k & B). pose proof (nth_error_Some (numbered name id bs) k) as K. rewrite B in K. rewrite numbered_size in K.
      assert (k < length bs)%nat by (apply K; discriminate). destruct (numbered_nth _ _ _ _ _ B) as (rs & E & ->). unfold fits_batch. cbn [b_thread b_number b_records].
      split; [lia|]. split; [lia|]. rewrite Forall_forall in Fi. apply Fi. eapply nth_error_In; eauto. }
    exact (proj1 (schema_reading _ _ _ _ Fb Sm Ct)).
  - split; auto. intros k rs N. destruct (nth_error blks k) as [blk|] eqn:K. 2: { apply nth_error_None in K. assert (k < length bs)%nat by (apply nth_error_Some; rewrite N; discriminate). lia. }
    destruct (H k blk K) as (rs' & N' & X). rewrite N in N'. injection N' as <-. eauto.
Qed.
Theorem filed_named iter w root threads duration number pod d g vars ds tests t calls q : suite_fits vars ds tests -> In (t, calls) tests ->
  read_node (fst root) (snd root) = Some (whole_suite vars ds tests) -> threads <> 0 ->
  goes g (launch iter w root (Some t) threads duration number true pod d) q -> p_main q = Gone true -> (forall id, serves (g_world g id) ds) ->
  forall id, id < threads -> id < 2 ^ 32 -> share duration number threads <= 2 ^ 32 -> quick (g_world g id) -> g_accepts g (record_path g pod id) = [] ->
  exists vs file, events_of (Tester id) (p_log q) = visits_events calls vs /\ visits_rightly (g_world g id) calls vs /\
    mget (record_path g pod id) (p_disk q) = Some file /\ (small file -> file_tells (g_world g id) t id calls vs file).
Proof.
  intros S Hin Rd Th G Gn Sv id I I32 Sh Qk Ac. destruct (whole_loads w root vars ds tests S Rd) as (src & s1 & L & B & C & K). destruct S as (V & Nd & D & Nt & T).
  assert (Ic : incl calls ds) by (rewrite Forall_forall in T; exact (proj2 (T _ Hin))).
  assert (U : forall w', texts_in w' (s_ctx s1) vars). { intros w' n u Tx. rewrite C. now apply shown_text. }
  assert (Bt : mget t (s_tests src) = Some (calls_of calls)).
  { apply in_mget; [eapply Permutation_NoDup; [apply Permutation_map, Permutation_sym, B|rewrite map_map; exact Nt]|]. eapply Permutation_in; [apply Permutation_sym, B|]. apply in_map_iff. exists (t, calls). auto. }
  destruct (named_end iter w root t threads duration number true pod d g src s1 _ q L Bt Th G Gn) as (bss & Lb & H & _).
  destruct (nth_error bss (N.to_nat id)) as [bs|] eqn:Nb. 2: { apply nth_error_None in Nb. lia. }
  destruct (H id bs Nb) as [(s & It & Le & Y) Fl].
  destruct (whole_iterated _ _ _ _ _ D (Sv id) Ic K (U (g_world g id)) _ _ _ It) as (R & Rc & Vs & vs & Lr & Et & Rp & Lbs & Kp).
  destruct Y as [[-> Y]|(Lt & o & s2 & E & O & _)].
  - exists vs. eexists. split; [exact Et|]. split; [exact Rp|]. split; [apply Fl; reflexivity|]. intros Sm.
    assert (Fi : Forall (Forall SpecWriter.fits) bs).
    { apply Forall_forall. intros recs Ir. apply In_nth_error in Ir. destruct Ir as [k Ir]. assert (Hk : (k < length bs)%nat) by (apply nth_error_Some; rewrite Ir; discriminate).
      destruct (nth_error vs k) as [xs|] eqn:Nv. 2: { apply nth_error_None in Nv. lia. } destruct (nth_error_split _ _ Nv) as (past & rest & Ev & Lp).
      destruct (Kp _ _ _ Ev) as (recs' & N' & Kr). rewrite Lp, Ir in N'. injection N' as <-. exact (kept_fits _ _ _ _ _ Qk Kr). }
    destruct (recorded_file g _ t id bs Ac I32 ltac:(lia) Fi Sm) as (kvs & sync & blks & Ct & De & Ll & Hb). exists kvs, sync, blks. split; auto. split; auto. split; [congruence|].
    intros past xs rest Ev. destruct (Kp _ _ _ Ev) as (recs & N' & Kr). destruct (Hb _ _ N') as (blk & Nk & F1 & F2). exists blk. split; auto. exact (kept_block _ _ _ _ _ _ _ _ _ Kr F1 F2).
  - destruct (test_prints _ vars ds calls s D (Sv id) Ic ltac:(unfold knows; rewrite R; exact K) (same_vars _ _ _ _ (U _) Vs) Rc) as (v' & recs & xs & E' & _).
    rewrite E in E'. injection E' as -> _. destruct O as [O|[e O]]; discriminate.
Qed.
Theorem filed_all iter w root threads duration number pod d g vars ds tests q : (forall l, Permutation (iter l) l) -> suite_fits vars ds tests -> N.of_nat (length tests) <= 2 ^ 32 ->
  read_node (fst root) (snd root) = Some (whole_suite vars ds tests) ->
  goes g (launch iter w root None threads duration number true pod d) q -> p_main q = Gone true -> (forall id, serves (g_world g id) ds /\ quick (g_world g id)) -> (forall path, g_accepts g path = []) ->
  exists order, Permutation order tests /\
    forall id t calls, nth_error order (N.to_nat id) = Some (t, calls) -> exists xs file, events_of (Tester id) (p_log q) = visit_events calls xs /\ visit_rightly (g_world g id) [] calls xs /\
      mget (record_path g pod id) (p_disk q) = Some file /\ (small file -> file_tells (g_world g id) t id calls [xs] file).
Proof.
  intros Pi S Le Rd G Gn SvQ Ac. destruct (whole_loads w root vars ds tests S Rd) as (src & s1 & L & B & C & K). destruct S as (V & Nd & D & Nt & T).
  assert (U : forall w', texts_in w' (s_ctx s1) vars). { intros w' n u Tx. rewrite C. now apply shown_text. }
  pose proof (Permutation_trans (Pi (s_tests src)) B) as Bi. assert (Ln : length (iter (s_tests src)) = length tests) by (rewrite (Permutation_length Bi), map_length; reflexivity).
  destruct (Permutation_map_inv _ _ Bi) as (order & Eo & Po). exists order. split; [now apply Permutation_sym|].
  intros id t calls N. assert (N' : nth_error (iter (s_tests src)) (N.to_nat id) = Some (t, calls_of calls)) by (rewrite Eo, nth_error_map, N; reflexivity). destruct (SvQ id) as [Sv Qk].
  destruct (all_threads iter w root threads duration number true pod d g src s1 q id t _ L ltac:(now rewrite Ln) N' G) as (o & s2 & E & _ & Ow & Fl). destruct (Ow Gn) as [Eow _].
  assert (It : In (t, calls) tests) by (eapply Permutation_in; [apply Permutation_sym, Po|]; eapply nth_error_In; exact N). rewrite Forall_forall in T. destruct (T _ It) as [_ Ic]. cbn [snd] in Ic.
  destruct (test_prints (g_world g id) vars ds calls (St (Ctx (c_vars (s_ctx s1)) (c_reqs (s_ctx s1)) []) []) D Sv Ic) as (v & recs & xs & E' & Q & P & _ & Kp); [exact K|intros n u X; exact (U _ n u X)|reflexivity|].
  rewrite E in E'. injection E' as -> ->. cbn [s_trace s_ctx c_recs afterwards_once app] in *. exists xs. eexists. split; [rewrite Eow, P; reflexivity|]. split; [exact Q|].
  destruct (Fl eq_refl) as [(_ & _ & X)|[(_ & X)|(_ & _ & _ & X)]]; [contradiction|now specialize (X Gn)|]. split; [exact X|]. intros Sm.
  assert (I32 : id < 2 ^ 32). { assert (N.to_nat id < length (iter (s_tests src)))%nat by (apply nth_error_Some; rewrite N'; discriminate). lia. }
  destruct (recorded_file g _ t id [recs] (Ac _) I32 ltac:(cbn; lia) (Forall_cons _ (kept_fits _ _ _ _ _ Qk Kp) (Forall_nil _)) Sm) as (kvs & sync & blks & Ct & De & Ll & Hb). exists kvs, sync, blks. split; auto. split; auto. split; auto.
  intros past xs' rest Ev. destruct past as [|p past]; [|destruct past; discriminate]. injection Ev as <- <-. destruct (Hb 0%nat recs eq_refl) as (blk & Nk & F1 & F2). exists blk. split; auto. exact (kept_block _ _ _ _ _ _ _ _ _ Kp F1 F2).
Qed.
