(** What was there keeps doing what it did *)
From Coq Require Import Lia.
From Verif Require Import LexerProofs ParserTop ByLineProofs EvaluatorTop TextProofs EvaluatorProofs ReadsProofs RunProofs CombineProofs ProcessTop ProcessOnce ProcessRun ProcessProofs ProcessEnds ProcessLaunch TypesProofs SpecGrown.
Open Scope N_scope.

(** contexts in which the body finds the same *)
Definition as_before (body : list expr) (c c' : ctx) : Prop :=
  (forall e r, In e body -> In r (called e) -> mget r (c_reqs c') = mget r (c_reqs c)) /\
  (forall e n, In e body -> reads (c_reqs c) e n -> mget n (c_vars c') = mget n (c_vars c)).
Lemma once_same w body s s' : s_trace s = s_trace s' -> as_before body (s_ctx s) (s_ctx s') -> c_recs (s_ctx s) = c_recs (s_ctx s') -> forall o s1, eval_block w body s = (o, s1) ->
  exists s1', eval_block w body s' = (o, s1') /\ s_trace s1 = s_trace s1' /\ c_recs (s_ctx s1) = c_recs (s_ctx s1') /\ as_before body (s_ctx s1) (s_ctx s1') /\
    c_reqs (s_ctx s1) = c_reqs (s_ctx s) /\ c_reqs (s_ctx s1') = c_reqs (s_ctx s').
Proof.
  intros T [Q R] C o s1 E.
  destruct (block_reads_only w body s s' T) as (o' & tr & recs & v1 & v2 & E1 & E2 & M); [intros e I r J; symmetry; eauto|intros e n I J; symmetry; eauto|].
  rewrite E in E1. injection E1 as -> ->. eexists. split; [exact E2|]. cbn [s_trace s_ctx c_recs c_reqs]. rewrite T, C. repeat split; auto.
  intros e n I J. cbn [s_ctx c_vars c_reqs] in *. destruct (M n) as [[A B]|A]; [rewrite A, B; eauto|now symmetry].
Qed.
Lemma iterated_same w body c c' : as_before body c c' -> forall k s bs, iterated w body c k s bs ->
  exists s', iterated w body c' k s' bs /\ s_trace s = s_trace s' /\ c_recs (s_ctx s) = [] /\ c_recs (s_ctx s') = [] /\ as_before body (s_ctx s) (s_ctx s').
Proof.
  intros A. induction 1 as [|k s bs v s1 It IH E].
  - eexists. split; [constructor|]. repeat split; apply A.
  - destruct IH as (s' & It' & T & R & R' & B). destruct (once_same w body s s' T B ltac:(congruence) _ _ E) as (s1' & E' & T1 & C1 & B1 & Q1 & Q1').
    eexists. split; [rewrite C1; econstructor; eauto|]. cbn [s_trace s_ctx c_recs]. rewrite T1, C1. repeat split; apply B1.
Qed.
Lemma done_same w body c c' m stopped bs own : as_before body c c' -> done_with w body c m stopped bs own -> done_with w body c' m stopped bs own.
Proof.
  intros A (s & It & L & D). destruct (iterated_same w body c c' A _ _ _ It) as (s' & It' & T & R & R' & B). exists s'. split; auto. split; auto.
  destruct D as [[-> D]|(Lt & o & s2 & E & O & ->)]; [left; auto|right]. split; auto.
  destruct (once_same w body s s' T B ltac:(congruence) _ _ E) as (s2' & E' & T2 & C2 & _). exists o, s2'. split; auto. split; auto. rewrite T2. f_equal. destruct o; cbn; auto. now rewrite C2.
Qed.
Lemma done_fun w body c m bs own bs' own' : done_with w body c m false bs own -> done_with w body c m false bs' own' -> bs = bs' /\ own = own'.
Proof.
  assert (Aux : forall bs own bs' own', done_with w body c m false bs own -> done_with w body c m false bs' own' -> N.of_nat (length bs) < N.of_nat (length bs') -> False).
  { intros a x a' x' (s & It & L & D) (s' & It' & L' & D') Lt. destruct (iterated_before _ _ _ _ _ _ It' _ _ _ It Lt) as (v & s1 & E).
    destruct D as [[_ [D|D]]|(_ & o & s2 & E2 & O & _)]; [lia|discriminate|]. rewrite E in E2. injection E2 as <- _. destruct O as [O|[e O]]; discriminate. }
  intros H H'. destruct (N.lt_trichotomy (N.of_nat (length bs)) (N.of_nat (length bs'))) as [X|[X|X]]; [exfalso; eauto| |exfalso; eauto].
  destruct H as (s & It & L & D), H' as (s' & It' & L' & D'). rewrite <- X in It'. destruct (iterated_fun _ _ _ _ _ _ It _ _ It') as [-> ->]. split; auto.
  destruct D as [[-> [D|D]]|(Lt & o & s2 & E & O & ->)], D' as [[-> [D'|D']]|(Lt' & o' & s2' & E' & O' & ->)]; try discriminate; try lia; auto.
  rewrite E in E'. injection E' as <- <-. reflexivity.
Qed.
Lemma loads_reqs w root src s1 : loads w root src s1 -> forall n, mget n (c_reqs (s_ctx s1)) = mget n (s_requests src) /\ mget n (mextend [] (s_requests src)) = mget n (s_requests src).
Proof.
  intros (text & v & _ & P & E) n. destruct (block_frame _ _ _ _ _ E) as (_ & Q & _). rewrite Q. cbn [s_ctx c_reqs].
  assert (ND : NoDup (map fst (s_requests src))) by (apply collected in P; destruct P as (is & u & _ & _ & _ & _ & _ & N & _); exact N).
  rewrite extend_get by auto. destruct (mget n (s_requests src)); auto.
Qed.
Lemma grown_before w root src s1 root' src' s1' extra name body : loads w root src s1 -> loads w root' src' s1' -> grown src src' extra name body -> as_before body (s_ctx s1) (s_ctx s1').
Proof.
  intros L L' (X & B & B' & Q & V). pose proof (loads_reqs _ _ _ _ L) as R. pose proof (loads_reqs _ _ _ _ L') as R'.
  destruct L as (text & v & _ & P & E), L' as (text' & v' & _ & P' & E').
  destruct (block_reads_only w (s_exprs src) (St (Ctx [] (mextend [] (s_requests src)) []) []) (St (Ctx [] (mextend [] (s_requests src')) []) []) eq_refl) as (o & tr & recs & v1 & v2 & E1 & E2 & M).
  { intros e I r J. cbn [s_ctx c_reqs]. rewrite (proj2 (R r)), (proj2 (R' r)). symmetry. apply (Q e); auto. apply in_or_app. auto. }
  { reflexivity. }
  rewrite E in E1. injection E1 as <- ->. cbn [s_ctx c_reqs c_vars c_recs s_trace] in *.
  assert (Veq : forall n, mget n v1 = mget n v2) by (intros n; destruct (M n) as [[-> ->]|H]; auto).
  assert (Vs : forall n, ~ In n (flat_map let_names extra) -> mget n (c_vars (s_ctx s1')) = mget n v2).
  { intros n N. rewrite X in E'. destruct extra as [|x extra].
    - rewrite app_nil_r, E2 in E'. injection E' as _ <-. reflexivity.
    - rewrite block_app in E' by discriminate. rewrite E2 in E'. destruct (block_frame _ _ _ _ _ E') as (F & _). rewrite (F n N). reflexivity. }
  split.
  - intros e r I J. cbn [s_ctx c_reqs] in *. rewrite (proj1 (R' r)), (proj2 (R r)). apply (Q e); auto. apply in_or_app. auto.
  - intros e n I J. cbn [s_ctx c_reqs c_vars] in *. rewrite Vs, Veq; auto. apply (V e n I). destruct J as [J|(r & t & a & ps & J1 & J2 & J3 & J4)]; [now left|]. right. exists r, t, a, ps. rewrite <- (proj2 (R r)). auto.
Qed.

Theorem grown_alone : forall iter w root src s1 iter' root' src' s1' extra name body threads duration number record pod d d' g p p' id,
  loads w root src s1 -> loads w root' src' s1' -> grown src src' extra name body -> id < threads ->
  goes g (launch iter w root (Some name) threads duration number record pod d) p -> p_main p = Gone true -> p_flag p = true ->
  goes g (launch iter' w root' (Some name) threads duration number record pod d') p' -> p_main p' = Gone true -> p_flag p' = true ->
  events_of (Tester id) (p_log p) = events_of (Tester id) (p_log p') /\
  (record = true -> mget (record_path g pod id) (p_disk p) = mget (record_path g pod id) (p_disk p')).
Proof.
  intros iter w root src s1 iter' root' src' s1' extra name body threads duration number record pod d d' g p p' id L L' G I Gp Mp Fp Gp' Mp' Fp'.
  pose proof (grown_before _ _ _ _ _ _ _ _ _ _ L L' G) as A. destruct G as (_ & B & B' & _). assert (T0 : threads <> 0) by lia.
  destruct (named_end iter w root name threads duration number record pod d g src s1 body p L B T0 Gp Mp) as (bss & Lb & Each & _).
  destruct (named_end iter' w root' name threads duration number record pod d' g src' s1' body p' L' B' T0 Gp' Mp') as (bss' & Lb' & Each' & _).
  destruct (nth_error bss (N.to_nat id)) as [bs|] eqn:Nb; [|apply nth_error_None in Nb; lia].
  destruct (nth_error bss' (N.to_nat id)) as [bs'|] eqn:Nb'; [|apply nth_error_None in Nb'; lia].
  destruct (Each id bs Nb) as [Dn Fl], (Each' id bs' Nb') as [Dn' Fl']. rewrite Fp in Dn. rewrite Fp' in Dn'. cbn [negb] in *.
  apply (done_same _ _ _ _ _ _ _ _ A) in Dn. destruct (done_fun _ _ _ _ _ _ _ _ Dn Dn') as [<- <-]. split; auto. intros R. rewrite (Fl R), (Fl' R). reflexivity.
Qed.
Theorem grown_all : forall iter w root src s1 iter' root' src' s1' extra name body threads duration number record pod d g p threads' duration' number' record' pod' d' g' p' id id',
  loads w root src s1 -> loads w root' src' s1' -> grown src src' extra name body ->
  N.of_nat (length (iter (s_tests src))) <= 2 ^ 32 -> nth_error (iter (s_tests src)) (N.to_nat id) = Some (name, body) ->
  N.of_nat (length (iter' (s_tests src'))) <= 2 ^ 32 -> nth_error (iter' (s_tests src')) (N.to_nat id') = Some (name, body) -> g_world g' id' = g_world g id ->
  goes g (launch iter w root None threads duration number record pod d) p -> p_main p = Gone true ->
  goes g' (launch iter' w root' None threads' duration' number' record' pod' d') p' -> p_main p' = Gone true ->
  events_of (Tester id) (p_log p) = events_of (Tester id') (p_log p') /\
  exists bs, (record = true -> mget (record_path g pod id) (p_disk p) = Some (recorded g (record_path g pod id) name id bs)) /\
    (record' = true -> mget (record_path g' pod' id') (p_disk p') = Some (recorded g' (record_path g' pod' id') name id' bs)).
Proof.
  intros iter w root src s1 iter' root' src' s1' extra name body threads duration number record pod d g p threads' duration' number' record' pod' d' g' p' id id' L L' G Le Nt Le' Nt' W Gp Mp Gp' Mp'.
  pose proof (grown_before _ _ _ _ _ _ _ _ _ _ L L' G) as A.
  destruct (all_threads iter w root threads duration number record pod d g src s1 p id name body L Le Nt Gp) as (o & s2 & E & Own). cbn zeta in Own. destruct Own as (_ & Own & Rec). destruct (Own Mp) as [Own1 ND].
  destruct (all_threads iter' w root' threads' duration' number' record' pod' d' g' src' s1' p' id' name body L' Le' Nt' Gp') as (o' & s2' & E' & Own'). cbn zeta in Own'. destruct Own' as (_ & Own' & Rec'). destruct (Own' Mp') as [Own1' ND'].
  rewrite W in *.
  destruct (once_same (g_world g id) body (St (Ctx (c_vars (s_ctx s1)) (c_reqs (s_ctx s1)) []) []) (St (Ctx (c_vars (s_ctx s1')) (c_reqs (s_ctx s1')) []) []) eq_refl A eq_refl _ _ E) as (s2'' & E2 & T2 & C2 & _).
  rewrite E2 in E'. injection E' as <- <-. split; [rewrite Own1, Own1', T2; f_equal; destruct o; cbn; now rewrite ?C2|].
  exists (match o with Panic => [] | _ => [c_recs (s_ctx s2)] end). split; intros R.
  - destruct (Rec R) as [(_ & _ & X)|[(X & Y)|(_ & Y & _ & X)]]; [congruence|rewrite (Y Mp); exact X|rewrite X; destruct o; congruence].
  - rewrite C2. destruct (Rec' R) as [(_ & _ & X)|[(X & Y)|(_ & Y & _ & X)]]; [congruence|rewrite (Y Mp'); exact X|rewrite X; destruct o; congruence].
Qed.

(** files added *)
Lemma last_of_without {A} (get : source -> option A) a f b d : get f = None -> last_of get (a ++ f :: b) d <-> last_of get (a ++ b) d.
Proof.
  intros N. split.
  - intros (x & s & y & E & G & F). symmetry in E. apply app_split in E. destruct E as [(z & Ex & Ey)|(u & z & Ea & Ey)].
    + destruct z as [|q z]; cbn in Ey; injection Ey as <- ->; [congruence|]. exists (a ++ z), s, y. subst x. rewrite <- app_assoc. auto.
    + cbn in Ey. injection Ey as <- ->. exists x, s, (z ++ b). rewrite Ea, <- app_assoc. split; auto. split; auto. apply Forall_app in F. destruct F as [F1 F2]. inversion F2; subst. apply Forall_app. auto.
  - intros (x & s & y & E & G & F). symmetry in E. apply app_split in E. destruct E as [(z & Ex & Ey)|(u & z & Ea & Ey)].
    + exists (a ++ f :: z), s, y. subst x b. rewrite <- app_assoc. auto.
    + cbn in Ey. injection Ey as <- ->. exists x, s, (z ++ f :: b). rewrite Ea, <- app_assoc. split; auto. split; auto. apply Forall_app in F. destruct F as [F1 F2]. apply Forall_app. auto.
Qed.
Lemma option_same {A} (x y : option A) : (forall d, x = Some d <-> y = Some d) -> x = y.
Proof. intros H. destruct x as [a|]; [symmetry; now apply H|]. destruct y as [b|]; auto. now apply H. Qed.
Lemma parsed_all files srcs srcs' : Forall2 (fun f s => parse f = Ok s) files srcs -> Forall2 (fun f s => parse f = Ok s) files srcs' -> srcs = srcs'.
Proof. intros F. revert srcs'. induction F; intros srcs' F'; inversion F'; subst; auto. f_equal; [congruence|auto]. Qed.
Theorem grown_files : forall a f b src sf name body, Forall self_contained (a ++ f :: b) -> parse (List.concat (a ++ b)) = Ok src -> parse f = Ok sf -> s_exprs sf = [] \/ b = [] ->
  mget name (s_tests src) = Some body -> mget name (s_tests sf) = None ->
  (forall e r, In e (s_exprs src ++ body) -> In r (called e) -> mget r (s_requests sf) = None) ->
  (forall e n, In e body -> reads (s_requests src) e n -> ~ In n (flat_map let_names (s_exprs sf))) ->
  exists src', parse (List.concat (a ++ f :: b)) = Ok src' /\ grown src src' (s_exprs sf) name body.
Proof.
  intros a f b src sf name body F P Pf Ex B Nf Q V.
  destruct (files_merge _ F) as (srcs' & src' & A' & P' & X' & R' & T').
  assert (F0 : Forall self_contained (a ++ b)) by (apply Forall_app in F; destruct F as [F1 F2]; inversion F2; subst; apply Forall_app; auto).
  destruct (files_merge _ F0) as (srcs & src0 & A & P0 & X & R & T). rewrite P in P0. injection P0 as <-.
  apply Forall2_app_inv_l in A'. destruct A' as (sa & l & Aa & Al & ->). inversion Al as [|? s ? sb Af Ab]; subst. assert (s = sf) by congruence. subst s.
  assert (srcs = sa ++ sb) by (eapply parsed_all; [exact A|apply Forall2_app; auto]). subst srcs.
  exists src'. split; auto. split; [|split; auto; split; [|split; auto]].
  - rewrite X', X, !flat_map_app. cbn [flat_map]. destruct Ex as [-> | ->]; [now rewrite app_nil_r|]. inversion Ab; subst. cbn. now rewrite !app_nil_r.
  - apply T'. apply last_of_without; auto. now apply T.
  - intros e r I J. apply option_same. intros d. rewrite R', R. apply last_of_without. eauto.
Qed.
