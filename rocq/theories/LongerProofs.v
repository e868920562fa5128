(** Longer runs begin like shorter ones *)
From Coq Require Import Lia.
From Verif Require Import TextProofs EvaluatorProofs EvaluatorTop RunProofs ProcessProofs ProcessRun ProcessTop ProcessLaunch CausalProofs SpecProcess.
Open Scope N_scope.

Lemma block_longer w es s o s' : eval_block w es s = (o, s') -> starts_with (s_trace s) (s_trace s').
Proof. intros E. destruct (block_requests_sent _ _ _ _ _ E) as (recs & tr & _ & T & _). exists tr. exact T. Qed.
Lemma iterated_longer w body c k s bs : iterated w body c k s bs -> forall j sj bj, iterated w body c j sj bj -> j <= k -> starts_with (s_trace sj) (s_trace s) /\ starts_with bj bs.
Proof.
  induction 1 as [|k s bs v s1 I IH E]; intros j sj bj J L.
  - inversion J; subst; [split; apply sw_refl|lia].
  - destruct (N.eq_dec j (k + 1)) as [->|NE].
    + destruct (iterated_fun _ _ _ _ _ _ J _ _ (it_next _ _ _ _ _ _ _ _ I E)) as [-> ->]. split; apply sw_refl.
    + destruct (IH j sj bj J) as [A B]; [lia|]. split; [|eapply sw_trans; [exact B|]; eexists; reflexivity]. eapply sw_trans; [exact A|]. eapply sw_trans; [exact (block_longer _ _ _ _ _ E)|]. cbn [s_trace]. eexists. reflexivity.
Qed.
(** what was done in the round after [sj], if all [k] rounds were made *)
Lemma round_within w body c k s bs j sj bj own o s2 : iterated w body c k s bs -> iterated w body c j sj bj -> j < k -> eval_block w body sj = (o, s2) -> starts_with own (s_trace s2 ++ afterwards w o s2) -> starts_with own (s_trace s).
Proof.
  intros I J L E P. destruct (iterated_before _ _ _ _ _ _ I _ _ _ J L) as (v & s3 & E'). rewrite E in E'. injection E' as -> ->. eapply sw_trans; [exact P|].
  exact (proj1 (iterated_longer _ _ _ _ _ _ I _ _ _ (it_next _ _ _ _ _ _ _ _ J E) ltac:(lia))).
Qed.
Lemma ways_agree w body c m m' bs bs' own own' : under_way w body c m bs own -> under_way w body c m' bs' own' -> starts_with own own' \/ starts_with own' own.
Proof.
  intros (s & I & _ & A) (s' & I' & _ & A').
  assert (B : starts_with (s_trace s) own) by (destruct A as [->|(_ & o & s2 & _ & P & _)]; [apply sw_refl|exact P]).
  assert (B' : starts_with (s_trace s') own') by (destruct A' as [->|(_ & o & s2 & _ & P & _)]; [apply sw_refl|exact P]).
  destruct (N.lt_trichotomy (N.of_nat (length bs)) (N.of_nat (length bs'))) as [L|[L|L]].
  - left. eapply sw_trans; [|exact B']. destruct A as [->|(_ & o & s2 & E & _ & P)]; [exact (proj1 (iterated_longer _ _ _ _ _ _ I' _ _ _ I ltac:(lia)))|exact (round_within _ _ _ _ _ _ _ _ _ _ _ _ I' I L E P)].
  - rewrite L in I. destruct (iterated_fun _ _ _ _ _ _ I _ _ I') as [-> ->]. destruct A as [->|(_ & o & s2 & E & _ & P)]; [now left|]. destruct A' as [->|(_ & o' & s2' & E' & _ & P')]; [now right|]. rewrite E in E'. injection E' as <- <-. exact (sw_compare _ _ _ P P').
  - right. eapply sw_trans; [|exact B]. destruct A' as [->|(_ & o & s2 & E & _ & P)]; [exact (proj1 (iterated_longer _ _ _ _ _ _ I _ _ _ I' ltac:(lia)))|exact (round_within _ _ _ _ _ _ _ _ _ _ _ _ I I' L E P)].
Qed.
Lemma done_length w body c m bs own k s bs' : done_with w body c m false bs own -> iterated w body c k s bs' -> k <= m -> k <= N.of_nat (length bs).
Proof.
  intros (s0 & I & _ & [(_ & [L|L])|(L & o & s2 & E & F & _)]) I' K; [lia|discriminate L|]. destruct (N.le_gt_cases k (N.of_nat (length bs))) as [|G]; auto. exfalso.
  destruct (iterated_before _ _ _ _ _ _ I' _ _ _ I G) as (v & s3 & E'). rewrite E in E'. injection E' as -> _. destruct F as [F|[e F]]; discriminate F.
Qed.
Lemma done_longer w body c m m' bs bs' own own' : done_with w body c m false bs own -> under_way w body c m' bs' own' -> m' <= m -> starts_with own' own.
Proof.
  intros D (s' & I' & L' & A') Le. pose proof (done_length _ _ _ _ _ _ _ _ _ D I' ltac:(lia)) as K. destruct D as (s & I & L & D).
  assert (B : starts_with (s_trace s) own). { destruct D as [(-> & _)|(_ & o & s2 & E & _ & ->)]; [apply sw_refl|]. eapply sw_trans; [exact (block_longer _ _ _ _ _ E)|]. eexists. reflexivity. }
  destruct A' as [->|(Lt & o & s2 & E & _ & P)]; [eapply sw_trans; [exact (proj1 (iterated_longer _ _ _ _ _ _ I _ _ _ I' K))|exact B]|].
  destruct (N.eq_dec (N.of_nat (length bs')) (N.of_nat (length bs))) as [Eq|Ne].
  - rewrite Eq in I'. destruct (iterated_fun _ _ _ _ _ _ I' _ _ I) as [-> ->]. destruct D as [(_ & [Z|Z])|(_ & o' & s2' & E' & _ & ->)]; [lia|discriminate Z|]. rewrite E in E'. injection E' as <- <-. exact P.
  - eapply sw_trans; [|exact B]. exact (round_within _ _ _ _ _ _ _ _ _ _ _ _ I I' ltac:(lia) E P).
Qed.
Theorem rounds_agree iter iter' w root name threads threads' duration duration' number number' record record' pod pod' d d' g g' src s1 body p p' id id' : loads w root src s1 -> mget name (s_tests src) = Some body ->
  id < threads -> id' < threads' -> g_world g id = g_world g' id' ->
  goes g (launch iter w root (Some name) threads duration number record pod d) p -> goes g' (launch iter' w root (Some name) threads' duration' number' record' pod' d') p' ->
  starts_with (events_of (Tester id) (p_log p)) (events_of (Tester id') (p_log p')) \/ starts_with (events_of (Tester id') (p_log p')) (events_of (Tester id) (p_log p)).
Proof.
  intros L M I I' W G G'. assert (T : threads <> 0) by lia. assert (T' : threads' <> 0) by lia. destruct (named_log _ _ _ _ _ _ _ _ _ _ _ _ _ _ _ L M T G) as (_ & _ & X). destruct (named_log _ _ _ _ _ _ _ _ _ _ _ _ _ _ _ L M T' G') as (_ & _ & X').
  destruct (X _ I) as (bs & U). destruct (X' _ I') as (bs' & U'). rewrite <- W in U'. exact (ways_agree _ _ _ _ _ _ _ _ _ U U').
Qed.
Theorem rounds_more iter iter' w root name threads threads' duration duration' number number' record record' pod pod' d d' g g' src s1 body p p' id id' : loads w root src s1 -> mget name (s_tests src) = Some body ->
  id < threads -> id' < threads' -> g_world g id = g_world g' id' -> share duration' number' threads' <= share duration number threads ->
  goes g (launch iter w root (Some name) threads duration number record pod d) p -> p_main p = Gone true -> p_flag p = true ->
  goes g' (launch iter' w root (Some name) threads' duration' number' record' pod' d') p' ->
  starts_with (events_of (Tester id') (p_log p')) (events_of (Tester id) (p_log p)).
Proof.
  intros L M I I' W Sh G Mg F G'. assert (T : threads <> 0) by lia. assert (T' : threads' <> 0) by lia. destruct (named_end _ _ _ _ _ _ _ _ _ _ _ _ _ _ _ L M T G Mg) as (bss & Len & X & _). destruct (named_log _ _ _ _ _ _ _ _ _ _ _ _ _ _ _ L M T' G') as (_ & _ & X').
  destruct (nth_error bss (N.to_nat id)) as [bs|] eqn:E; [|apply nth_error_None in E; lia]. destruct (X _ _ E) as [D _]. destruct (X' _ I') as (bs' & U'). rewrite <- W in U'. rewrite F in D. exact (done_longer _ _ _ _ _ _ _ _ _ D U' Sh).
Qed.
Lemma sw_anti {A} (a b : list A) : starts_with a b -> starts_with b a -> a = b.
Proof. intros [x ->] [y Y]. rewrite <- app_assoc in Y. rewrite <- (app_nil_r a) in Y at 1. apply app_inv_head in Y. symmetry in Y. apply app_eq_nil in Y. destruct Y as [-> _]. symmetry. apply app_nil_r. Qed.
Theorem rounds_same iter iter' w root name threads number record record' pod pod' d d' g g' src s1 body p p' id : loads w root src s1 -> mget name (s_tests src) = Some body ->
  id < threads -> g_world g id = g_world g' 0 ->
  goes g (launch iter w root (Some name) threads None number record pod d) p -> p_main p = Gone true -> p_flag p = true ->
  goes g' (launch iter' w root (Some name) 1 None (number / threads) record' pod' d') p' -> p_main p' = Gone true -> p_flag p' = true ->
  events_of (Tester id) (p_log p) = events_of (Tester 0) (p_log p').
Proof.
  intros L M I W G Mg F G' Mg' F'. assert (Sh : share None (number / threads) 1 = share None number threads) by (unfold share; apply N.div_1_r). apply sw_anti.
  - eapply (rounds_more iter' iter w root name 1 threads None None (number / threads) number); eauto; [lia|rewrite Sh; lia].
  - eapply (rounds_more iter iter' w root name threads 1 None None number (number / threads)); eauto; [lia|rewrite Sh; lia].
Qed.
(** ** and so do their files *)
Lemma file_grows f b : starts_with (f_data f) (f_data (file_write f b)).
Proof. unfold file_write. destruct (f_accept f) as [|[n|] acc]; cbn [f_data]; [eexists; reflexivity..|apply sw_refl]. Qed.
Lemma recorded_grows g path name id bs more : starts_with (recorded g path name id bs) (recorded g path name id (bs ++ more)).
Proof.
  induction more as [|b more IH] using rev_ind; [rewrite app_nil_r; apply sw_refl|]. eapply sw_trans; [exact IH|]. rewrite app_assoc. unfold recorded. rewrite numbered_snoc. unfold write_batches. rewrite fold_left_app. cbn [fold_left]. apply file_grows.
Qed.
Theorem rounds_recorded iter iter' w root name threads threads' duration duration' number number' pod pod' d d' g g' src s1 body p p' id : loads w root src s1 -> mget name (s_tests src) = Some body ->
  id < threads -> id < threads' -> g_world g id = g_world g' id -> g_accepts g (record_path g pod id) = g_accepts g' (record_path g' pod' id) -> share duration' number' threads' <= share duration number threads ->
  goes g (launch iter w root (Some name) threads duration number true pod d) p -> p_main p = Gone true -> p_flag p = true ->
  goes g' (launch iter' w root (Some name) threads' duration' number' true pod' d') p' -> p_main p' = Gone true ->
  exists a b, mget (record_path g' pod' id) (p_disk p') = Some a /\ mget (record_path g pod id) (p_disk p) = Some b /\ starts_with a b.
Proof.
  intros L M I I' W Ac Sh G Mg F G' Mg'. assert (T : threads <> 0) by lia. assert (T' : threads' <> 0) by lia. destruct (named_end _ _ _ _ _ _ _ _ _ _ _ _ _ _ _ L M T G Mg) as (bss & Len & X & _). destruct (named_end _ _ _ _ _ _ _ _ _ _ _ _ _ _ _ L M T' G' Mg') as (bss' & Len' & X' & _).
  destruct (nth_error bss (N.to_nat id)) as [bs|] eqn:E; [|apply nth_error_None in E; lia]. destruct (nth_error bss' (N.to_nat id)) as [bs'|] eqn:E'; [|apply nth_error_None in E'; lia].
  destruct (X _ _ E) as [D R]. destruct (X' _ _ E') as [(s' & J' & Le' & _) R']. rewrite <- W in J'. rewrite F in D. pose proof (done_length _ _ _ _ _ _ _ _ _ D J' ltac:(lia)) as K. destruct D as (s & J & _).
  destruct (iterated_longer _ _ _ _ _ _ J _ _ _ J' K) as [_ [more ->]]. eexists. eexists. split; [exact (R' eq_refl)|]. split; [exact (R eq_refl)|].
  replace (recorded g' (record_path g' pod' id) name id bs') with (recorded g (record_path g pod id) name id bs') by (unfold recorded; now rewrite Ac). apply recorded_grows.
Qed.
