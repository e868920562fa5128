(** Proofs about the statistics of a run of a suite. *)
From Verif Require Import TextProofs EvaluatorProofs EvaluatorTop SuiteProofs PrintsProofs ChainProofs BranchProofs WholeProofs ProcessTop ProcessOnce ProcessRun ProcessProofs ProcessEnds ProcessLaunch SpecProcess SpecLayout SpecTally.
From Coq Require Import Lia.
Open Scope N_scope.

Lemma texts_app a b : texts_of (a ++ b) = texts_of a ++ texts_of b.
Proof. apply flat_map_app. Qed.
Lemma record_timed r : timed (show_record r ++ [10]) (r_name r, t_total (r_time r) / 1000000).
Proof.
  destruct (verdict r) as (v & d & D & S & _). rewrite S. match goal with |- context [flat_map ?f (r_asserts r)] => exists (flat_map f (r_asserts r) ++ lit "--- " ++ v) end.
  exists d, (t_total (r_time r)). cbn [fst snd]. split; [|auto]. rewrite <- !app_assoc. reflexivity.
Qed.
Lemma records_timed rs : Forall2 timed (texts_of (SpecProcess.lines rs)) (samples rs).
Proof. induction rs as [|r rs IH]; [constructor|]. exact (Forall2_cons _ _ (record_timed r) IH). Qed.
Lemma asked_silent calls : texts_of (asked calls) = [].
Proof. induction calls; cbn; auto. Qed.
Lemma names_of_samples n l : length (samples_of n l) = count_occ (list_eq_dec N.eq_dec) (map fst l) n.
Proof.
  induction l as [|[m x] l IH]; cbn [samples_of flat_map map fst snd count_occ]; auto. rewrite app_length. unfold samples_of in IH. rewrite IH.
  destruct (list_eq_dec N.eq_dec n m), (list_eq_dec N.eq_dec m n); subst; try contradiction; auto; congruence.
Qed.
Lemma iterated_timed w vars ds c calls : Forall (fun q => new_name (d_name q) /\ ~ In 96 (d_template q) /\ Forall well_written (d_checks q) /\ filled vars (d_template q) (d_message q)) ds -> serves w ds ->
  incl calls ds -> knows c ds -> texts_in w c vars ->
  forall k s bs, iterated w (calls_of calls) c k s bs -> Forall2 timed (texts_of (s_trace s)) (flat_map samples bs) /\
    forall n, N.of_nat (length (samples_of n (flat_map samples bs))) = k * times_made n calls.
Proof.
  intros F A I K U k s bs H. induction H as [|k s bs v s1 It [IH1 IH2] E]; [split; [constructor|reflexivity]|].
  destruct (whole_iterated _ _ _ _ _ F A I K U _ _ _ It) as (R & Rc & Vs & _).
  destruct (test_prints w vars ds calls s F A I ltac:(unfold knows; rewrite R; exact K) (same_vars _ _ _ _ U Vs) Rc) as (v' & recs & xs & E' & _ & _ & Nm & _).
  rewrite E in E'. injection E' as _ ->. cbn [s_ctx c_reqs c_recs s_trace c_vars]. rewrite !flat_map_app. cbn [flat_map]. rewrite app_nil_r. split.
  - rewrite !texts_app, asked_silent, app_nil_r. apply Forall2_app; auto. exact (records_timed recs).
  - intros n. specialize (IH2 n). rewrite names_of_samples in *. rewrite map_app, count_occ_app.
    replace (map fst (samples recs)) with (map d_name calls) by (rewrite <- Nm; unfold samples; rewrite map_map; reflexivity). unfold times_made in *. rewrite Nnat.Nat2N.inj_add, N.mul_add_distr_r, N.mul_1_l. apply (f_equal2 N.add); [exact IH2|reflexivity].
Qed.
Lemma samples_parts bss : flat_map samples (List.concat bss) = List.concat (map (flat_map samples) bss).
Proof. induction bss as [|bs bss IH]; cbn [List.concat map]; auto. now rewrite flat_map_app, IH. Qed.
Theorem whole_tally iter w root threads duration number record pod d g vars ds tests t calls q : suite_fits vars ds tests -> In (t, calls) tests ->
  read_node (fst root) (snd root) = Some (whole_suite vars ds tests) -> threads <> 0 ->
  goes g (launch iter w root (Some t) threads duration number record pod d) q -> p_main q = Gone true -> (forall id, serves (g_world g id) ds) ->
  g_stat g = true -> (forall ks, Permutation (g_order g ks) ks) ->
  exists tss l text, p_log q = l ++ [(Collector, Printed text)] /\ events_of Collector l = [] /\ stat_report (List.concat tss) text /\
    length tss = N.to_nat threads /\ (forall id ts, nth_error tss (N.to_nat id) = Some ts -> Forall2 timed (texts_of (events_of (Tester id) (p_log q))) ts) /\
    (p_flag q = true -> forall n, N.of_nat (length (samples_of n (List.concat tss))) = threads * share duration number threads * times_made n calls).
Proof.
  intros S Hin Rd Th G Gn Sv Gs Go. destruct (whole_loads w root vars ds tests S Rd) as (src & s1 & L & B & C & K). destruct S as (V & Nd & D & Nt & T).
  assert (Ic : incl calls ds) by (rewrite Forall_forall in T; exact (proj2 (T _ Hin))).
  assert (U : forall w', texts_in w' (s_ctx s1) vars). { intros w' n u Tx. rewrite C. now apply shown_text. }
  assert (Bt : mget t (s_tests src) = Some (calls_of calls)).
  { apply in_mget; [eapply Permutation_NoDup; [apply Permutation_map, Permutation_sym, B|rewrite map_map; exact Nt]|]. eapply Permutation_in; [apply Permutation_sym, B|]. apply in_map_iff. exists (t, calls). auto. }
  destruct (named_end iter w root t threads duration number record pod d g src s1 _ q L Bt Th G Gn) as (bss & Lb & H & _ & St). destruct (St Gs Go) as (l & text & El & Cl & Rp).
  assert (P : forall id bs, nth_error bss (N.to_nat id) = Some bs -> Forall2 timed (texts_of (events_of (Tester id) (p_log q))) (flat_map samples bs) /\
    (p_flag q = true -> forall n, N.of_nat (length (samples_of n (flat_map samples bs))) = share duration number threads * times_made n calls)).
  { intros id bs Nb. destruct (H id bs Nb) as [(s & It & Le & Y) _]. destruct (iterated_timed _ _ _ _ _ D (Sv id) Ic K (U (g_world g id)) _ _ _ It) as [X1 X2].
    destruct Y as [[-> Y]|(Lt & o & s2 & E & O & _)].
    - split; auto. intros Fg n. rewrite X2. rewrite Fg in Y. destruct Y as [->|Y]; [reflexivity|discriminate].
    - destruct (whole_iterated _ _ _ _ _ D (Sv id) Ic K (U (g_world g id)) _ _ _ It) as (R & Rc & Vs & _).
      destruct (test_prints _ vars ds calls s D (Sv id) Ic ltac:(unfold knows; rewrite R; exact K) (same_vars _ _ _ _ (U _) Vs) Rc) as (v' & recs & xs & E' & _).
      rewrite E in E'. injection E' as -> _. destruct O as [O|[e O]]; discriminate. }
  exists (map (flat_map samples) bss), l, text. split; auto. split; auto. split; [rewrite <- samples_parts; exact Rp|]. split; [now rewrite map_length|]. split.
  - intros id ts N. rewrite nth_error_map in N. destruct (nth_error bss (N.to_nat id)) as [bs|] eqn:Nb; [|discriminate]. injection N as <-. exact (proj1 (P id bs Nb)).
  - intros Fg n. assert (Z : forall bs, In bs bss -> N.of_nat (length (samples_of n (flat_map samples bs))) = share duration number threads * times_made n calls).
    { intros bs I. apply In_nth_error in I. destruct I as [i I]. rewrite <- (Nnat.Nat2N.id i) in I. exact (proj2 (P _ _ I) Fg n). }
    clear -Z Lb. replace threads with (N.of_nat (length bss)) at 1 by lia. clear Lb. induction bss as [|bs bss IH]; [reflexivity|]. cbn [map List.concat length].
    rewrite names_of_samples, map_app, count_occ_app, <- !names_of_samples. rewrite Nnat.Nat2N.inj_add, (Z bs (or_introl eq_refl)), IH by (intros; apply Z; now right). lia.
Qed.
