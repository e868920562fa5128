(** The order of files and definitions does not matter *)
From Coq Require Import Lia.
From Verif Require Import LexerProofs ParserTop EvaluatorTop TextProofs EvaluatorProofs ReadsProofs RunProofs CombineProofs GrownProofs ByLineProofs ReadComplete SpecReading SpecMoved.
Open Scope N_scope.

(** ** contexts *)
Definition ctx_like (c c' : ctx) : Prop := (forall n, mget n (c_vars c') = mget n (c_vars c)) /\ (forall n, mget n (c_reqs c') = mget n (c_reqs c)) /\ c_recs c' = c_recs c.
Definition st_like (s s' : st) : Prop := ctx_like (s_ctx s) (s_ctx s') /\ s_trace s' = s_trace s.
Lemma block_like w es s s' : st_like s s' -> exists o s1 s1', eval_block w es s = (o, s1) /\ eval_block w es s' = (o, s1') /\ st_like s1 s1'.
Proof.
  intros [(V & R & C) T]. destruct (block_reads_only w es s s' (eq_sym T)) as (o & tr & recs & v1 & v2 & E1 & E2 & M); [intros; now rewrite R|intros; now rewrite V|].
  do 3 eexists. split; [exact E1|]. split; [exact E2|]. split; [split; [|split]|]; cbn [s_ctx c_vars c_reqs c_recs s_trace]; auto; try congruence.
  intros n. destruct (M n) as [[A B]|A]; [now rewrite A, B|now symmetry].
Qed.

(** ** processes *)
Definition job_like (j j' : job) : Prop :=
  j_thread j' = j_thread j /\ j_file j' = j_file j /\ j_name j' = j_name j /\ j_body j' = j_body j /\ j_limit j' = j_limit j /\ ctx_like (j_ctx j) (j_ctx j').
Definition tester_like (t t' : tester) : Prop :=
  job_like (te_job t) (te_job t') /\ te_env t' = te_env t /\ te_path t' = te_path t /\ te_accept t' = te_accept t /\ te_number t' = te_number t /\
  st_like (te_state t) (te_state t') /\ te_phase t' = te_phase t /\ te_todo t' = te_todo t.
Inductive main_like : main_phase -> main_phase -> Prop :=
| ml_starting js js' : Forall2 job_like js js' -> main_like (Starting js) (Starting js')
| ml_same m : main_like m m.
Definition process_like (p p' : process) : Prop :=
  main_like (p_main p) (p_main p') /\ Forall2 tester_like (p_testers p) (p_testers p') /\ p_flag p' = p_flag p /\ p_queue p' = p_queue p /\ p_stats p' = p_stats p /\
  p_reported p' = p_reported p /\ p_log p' = p_log p /\ p_disk p' = p_disk p.
Lemma job_new g j j' : job_like j j' -> tester_like (new_tester g j) (new_tester g j').
Proof.
  intros H. pose proof H as (A & B & C & D & E & F). unfold new_tester. rewrite B, E, A. repeat split; auto; try apply F.
Qed.
Lemma iteration_like stat t t' : tester_like t t' -> tester_like (iteration stat t) (iteration stat t').
Proof.
  intros (J & E & P & A & N & S & Ph & Td). pose proof J as (J1 & J2 & J3 & J4 & J5 & J6). unfold iteration. rewrite E, J4, J5, P, A, N.
  destruct (block_like (te_env t) (j_body (te_job t)) _ _ S) as (o & s1 & s1' & E1 & E2 & (V & R & C) & T). rewrite E1, E2. destruct S as [_ Ts].
  assert (Sn : since (te_state t') s1' = since (te_state t) s1) by (unfold since; now rewrite Ts, T).
  assert (Pu : forall rs k, puts t' rs k = puts t rs k) by (intros; unfold puts; now rewrite P, J3, J1).
  destruct o; destruct (j_limit (te_job t)); cbn [ctx_records]; rewrite ?C, ?Sn, ?Pu, ?T; (split; [exact J|]); cbn [te_env te_path te_accept te_number te_state te_phase te_todo]; repeat split; auto.
Qed.
Lemma move_like stat flag t t' a u : tester_like t t' -> tester_move stat flag t = Some (a, u) -> exists u', tester_move stat flag t' = Some (a, u') /\ tester_like u u'.
Proof.
  intros L. pose proof L as (J & E & P & A & N & S & Ph & Td). pose proof J as (J1 & J2 & J3 & J4 & J5 & J6). unfold tester_move. rewrite Td, Ph, J5, N, E, P, A.
  destruct (te_todo t) as [|x rest].
  - destruct (te_phase t); try discriminate.
    + destruct (j_limit (te_job t)) as [m|]; [|discriminate]. intros H. injection H as <- <-. eexists. split; [reflexivity|]. split; [exact J|]. repeat split; auto; apply S.
    + intros H. injection H as <- <-. eexists. split; [reflexivity|]. now apply iteration_like.
  - intros H. injection H as <- <-. eexists. split; [reflexivity|]. split; [exact J|]. repeat split; auto; apply S.
Qed.
Lemma gone_like t t' : tester_like t t' -> gone t' = gone t.
Proof. intros (_ & _ & _ & _ & _ & _ & Ph & Td). unfold gone. now rewrite Ph, Td. Qed.
Lemma running_like m m' : main_like m m' -> running m' = running m.
Proof. now destruct 1. Qed.
Lemma main_same m m' : main_like m m' -> (forall js, m <> Starting js) -> m' = m.
Proof. destruct 1; auto. intros X. now destruct (X js). Qed.
Lemma Forall2_gone (Q Q' : tester -> Prop) ts ts' : (forall t t', tester_like t t' -> Q t -> Q' t') -> Forall2 tester_like ts ts' -> Forall Q ts -> Forall Q' ts'.
Proof. intros H. induction 1; intros F; inversion F; subst; constructor; eauto. Qed.
Lemma step_like g p q p' : process_like p p' -> process_step g p q -> exists q', process_step g p' q' /\ process_like q q'.
Proof.
  intros L S. destruct p' as [m' ts' flag' qu' st' rp' lg' dk']. destruct S;
    destruct L as (M & T & F & Q & Sx & R & Lg & D); cbn [p_main p_testers p_flag p_queue p_stats p_reported p_log p_disk] in *; subst flag' qu' st' rp' lg' dk'.
  - assert (Ex : exists j' js', m' = Starting (j' :: js') /\ job_like j j' /\ Forall2 job_like js js').
    { inversion M as [? ? X|]; subst; [inversion X; subst; eauto|]. exists j, js. split; auto. assert (J : forall j, job_like j j) by (intros; repeat split; auto). split; auto. clear -J. induction js; constructor; auto. }
    destruct Ex as (j' & js' & -> & J & Js). pose proof (job_new g _ _ J) as N. assert (P : te_path (new_tester g j') = te_path (new_tester g j)) by apply N.
    eexists. split; [apply ps_start; rewrite P; assumption|]. rewrite P. split; [now constructor|]. split; [apply Forall2_app; auto|]. repeat split; auto.
  - assert (Ex : exists j' js', m' = Starting (j' :: js') /\ job_like j j').
    { inversion M as [? ? X|]; subst; [inversion X; subst; eauto|]. exists j, js. split; auto. repeat split; auto. }
    destruct Ex as (j' & js' & -> & J). pose proof (job_new g _ _ J) as N. assert (P : te_path (new_tester g j') = te_path (new_tester g j)) by apply N.
    eexists. split; [eapply ps_no_file; [rewrite P; eassumption|assumption]|]. split; [constructor|]. repeat split; auto.
  - assert (m' = Starting []) by (inversion M as [? ? X|]; [inversion X; auto|auto]). subst m'. eexists. split; [apply ps_started|]. split; [constructor|]. repeat split; auto.
  - apply Forall2_app_inv_l in T. destruct T as (us1 & us & T1 & T2 & ->). inversion T2 as [|? u ? us2 Tu T3]; subst.
    match goal with H : tester_move _ _ _ = _ |- _ => destruct (move_like _ _ _ _ _ _ Tu H) as (u' & Mu & Lu) end.
    eexists. split; [apply ps_tester; [rewrite (running_like _ _ M); assumption|exact Mu]|].
    pose proof Tu as (J & E & P & A & _). pose proof J as (J1 & _). unfold disk_after. rewrite P, A, J1. split; [exact M|]. split; [apply Forall2_app; auto|]. repeat split; auto.
  - apply main_same in M; [|discriminate]. subst m'. eexists. split; [apply ps_stop|]. split; [constructor|]. repeat split; auto.
  - apply main_same in M; [|discriminate]. subst m'. eexists. split; [apply ps_receive; assumption|]. split; [constructor|]. repeat split; auto.
  - apply main_same in M; [|discriminate]. subst m'. eexists. split; [apply ps_report; [assumption|]|].
    { eapply Forall2_gone; [|exact T|eassumption]. cbn beta. intros t t' X [Y|Y]; [left; rewrite <- Y; apply X|right; rewrite (gone_like _ _ X); exact Y]. }
    split; [constructor|]. repeat split; auto.
  - apply main_same in M; [|discriminate]. subst m'. eexists. split; [apply ps_exit; [|assumption]|].
    { eapply Forall2_gone; [|exact T|eassumption]. cbn beta. intros t t' X Y. rewrite (gone_like _ _ X). exact Y. }
    split; [constructor|]. repeat split; auto.
  - apply main_same in M; [|discriminate]. subst m'. eexists. split; [apply ps_die|]. split; [constructor|]. repeat split; auto.
Qed.
Lemma goes_like g p q : goes g p q -> forall p', process_like p p' -> exists q', goes g p' q' /\ process_like q q'.
Proof.
  induction 1 as [|p p1 p2 G IH S]; intros p' L; [exists p'; split; [constructor|exact L]|].
  destruct (IH p' L) as (q1 & G1 & L1). destruct (step_like _ _ _ _ L1 S) as (q2 & S2 & L2). exists q2. split; auto. econstructor; eauto.
Qed.
Lemma like_looks p p' : process_like p p' -> looks_like p p'.
Proof.
  intros (M & _ & F & _ & _ & _ & Lg & D). repeat split; auto; intros E; rewrite E in M; inversion M; auto.
Qed.

(** ** launching *)
Lemma named_like pod c c' name body m : ctx_like c c' -> forall k id, Forall2 job_like (named_jobs pod c name body m id k) (named_jobs pod c' name body m id k).
Proof. intros (V & R & C). induction k as [|k IH]; intros id; cbn [named_jobs]; constructor; auto. repeat split; auto. Qed.
Lemma all_like pod c c' : ctx_like c c' -> forall tests id, Forall2 job_like (all_jobs pod c id tests) (all_jobs pod c' id tests).
Proof. intros (V & R & C). induction tests as [|[n b] tests IH]; intros id; cbn [all_jobs]; constructor; auto. repeat split; auto. Qed.
Lemma extended_like text text' src src' : parse text = Ok src -> parse text' = Ok src' -> alike src src' -> forall n, mget n (mextend [] (s_requests src')) = mget n (mextend [] (s_requests src)).
Proof.
  intros P P' (_ & R & _) n.
  assert (ND : forall t s, parse t = Ok s -> NoDup (map fst (s_requests s))) by (intros t s X; apply collected in X; destruct X as (is & u & _ & _ & _ & _ & _ & N & _); exact N).
  rewrite !extend_get by eauto. now rewrite R.
Qed.
Lemma launch_like iter iter' w root root' text text' src src' name threads duration number record pod d : parse text = Ok src -> parse text' = Ok src' -> alike src src' ->
  read_node (fst root) (snd root) = Some text -> read_node (fst root') (snd root') = Some text' -> (name = None -> iter' (s_tests src') = iter (s_tests src)) ->
  process_like (launch iter w root name threads duration number record pod d) (launch iter' w root' name threads duration number record pod d).
Proof.
  intros P P' A Rd Rd' It. unfold launch. rewrite Rd, Rd'. unfold main_test, test_command, test_setup. rewrite P, P'. destruct A as (X & R & T). rewrite X.
  destruct (block_like w (s_exprs src) (upd (fun c => ctx_extend c (s_requests src)) (St ctx_new [])) (upd (fun c => ctx_extend c (s_requests src')) (St ctx_new []))) as (o & s1 & s1' & E1 & E2 & C & Tr).
  { split; [|reflexivity]. split; [reflexivity|]. split; [|reflexivity]. exact (extended_like _ _ _ _ P P' (conj X (conj R T))). }
  rewrite E1, E2.
  assert (Pr : forall t, s_trace (println_ t s1') = s_trace (println_ t s1)) by (intros t; unfold println_, emit; cbn; now rewrite Tr).
  assert (Same : forall m m' l l', main_like m m' -> l' = l -> process_like (Process m [] true [] [] false (map (pair Main) l) d) (Process m' [] true [] [] false (map (pair Main) l') d)) by (intros m m' l l' M ->; repeat split; try constructor; exact M).
  destruct o as [v|e| |]; try (apply Same; [apply ml_same|auto]).
  destruct name as [n|].
  - rewrite T. destruct (mget n (s_tests src)) as [body|]; [|apply Same; [apply ml_same|auto]].
    destruct (maximun_of _ _); (apply Same; [|exact Tr]); try apply ml_same. constructor. now apply named_like.
  - rewrite It by reflexivity. apply Same; auto. constructor. now apply all_like.
Qed.
Theorem alike_run iter iter' w root root' text text' src src' name threads duration number record pod d g p : parse text = Ok src -> parse text' = Ok src' -> alike src src' ->
  read_node (fst root) (snd root) = Some text -> read_node (fst root') (snd root') = Some text' -> (name = None -> iter' (s_tests src') = iter (s_tests src)) ->
  goes g (launch iter w root name threads duration number record pod d) p -> exists p', goes g (launch iter' w root' name threads duration number record pod d) p' /\ looks_like p p'.
Proof.
  intros P P' A Rd Rd' It G. destruct (goes_like _ _ _ G _ (launch_like iter iter' w root root' text text' src src' name threads duration number record pod d P P' A Rd Rd' It)) as (p' & G' & L). exists p'. split; auto. now apply like_looks.
Qed.
Theorem alike_tests text text' src src' : parse text = Ok src -> parse text' = Ok src' -> alike src src' -> Permutation (s_tests src) (s_tests src') /\ Permutation (s_requests src) (s_requests src').
Proof.
  intros P P' (_ & R & T).
  assert (ND : forall t s, parse t = Ok s -> NoDup (map fst (s_requests s)) /\ NoDup (map fst (s_tests s))) by (intros t s X; apply collected in X; destruct X as (is & u & _ & _ & _ & _ & _ & N & M); split; [exact N|apply M]).
  destruct (ND _ _ P) as [A B], (ND _ _ P') as [A' B'].
  assert (Z : forall {V} (l l' : list (str * V)), NoDup (map fst l) -> NoDup (map fst l') -> (forall n, mget n l' = mget n l) -> Permutation l l').
  { intros V l l' N N' E. apply NoDup_Permutation; [now apply NoDup_map_inv in N|now apply NoDup_map_inv in N'|]. intros [k v]. split; intros I.
    - apply mget_some_in. rewrite E. now apply in_mget.
    - apply mget_some_in. rewrite <- E. now apply in_mget. }
  split; apply Z; auto.
Qed.

(** ** files *)
Lemma last_of_swap {A} (get : source -> option A) a f g b d : get f = None \/ get g = None -> last_of get (a ++ g :: f :: b) d <-> last_of get (a ++ f :: g :: b) d.
Proof.
  assert (H : forall f g, get f = None -> last_of get (a ++ g :: f :: b) d <-> last_of get (a ++ f :: g :: b) d).
  { intros x y N. rewrite (last_of_without get a x (y :: b) d N). replace (a ++ y :: x :: b) with ((a ++ [y]) ++ x :: b) by now rewrite <- app_assoc. rewrite (last_of_without get (a ++ [y]) x b d N). now rewrite <- app_assoc. }
  intros [N|N]; [now apply H|symmetry; now apply H].
Qed.
Lemma alike_refl src : alike src src.
Proof. repeat split. Qed.
Theorem files_moved files files' : moved files files' -> Forall self_contained files -> Forall self_contained files' /\
  exists src src', parse (List.concat files) = Ok src /\ parse (List.concat files') = Ok src' /\ alike src src'.
Proof.
  induction 1 as [l|a f g b I|l m n M1 IH1 M2 IH2]; intros F.
  - split; auto. destruct (files_merge _ F) as (srcs & src & _ & P & _). exists src, src. repeat split; auto.
  - assert (F' : Forall self_contained (a ++ g :: f :: b)). { apply Forall_app in F. destruct F as [Fa F]. inversion F as [|? ? Ff F1]; subst. inversion F1 as [|? ? Fg F2]; subst. apply Forall_app. auto. }
    split; auto. destruct (files_merge _ F) as (srcs & src & A & P & X & R & T), (files_merge _ F') as (srcs' & src' & A' & P' & X' & R' & T'). exists src, src'. split; auto. split; auto.
    destruct I as (sf & sg & Pf & Pg & E & Nr & Nt).
    apply Forall2_app_inv_l in A. destruct A as (sa & l & Aa & Al & ->). inversion Al as [|? s ? sb Af Ab]; subst. inversion Ab as [|? t ? sc Ag Ac]; subst. assert (s = sf) by congruence. assert (t = sg) by congruence. subst s t.
    assert (srcs' = sa ++ sg :: sf :: sc) by (eapply parsed_all; [exact A'|apply Forall2_app; auto]). subst srcs'.
    split; [|split].
    + rewrite X, X', !flat_map_app. cbn [flat_map]. destruct E as [-> | ->]; now rewrite ?app_nil_l.
    + intros n. apply option_same. intros d. rewrite R', R. apply last_of_swap. apply Nr.
    + intros n. apply option_same. intros d. rewrite T', T. apply last_of_swap. apply Nt.
  - destruct (IH1 F) as (Fm & src & s1 & P & P1 & A). destruct (IH2 Fm) as (Fn & s2 & src' & P2 & P' & B). rewrite P1 in P2. injection P2 as <-. split; auto. exists src, src'. split; auto. split; auto.
    destruct A as (A1 & A2 & A3), B as (B1 & B2 & B3). split; [congruence|]. split; intros k; [now rewrite B2|now rewrite B3].
Qed.
Lemma independent_sym f g : independent f g -> independent g f.
Proof. intros (sf & sg & P & Q & E & R & T). exists sg, sf. repeat split; auto; [tauto| |]; intros n; [destruct (R n)|destruct (T n)]; auto. Qed.
Lemma moved_under f l m : moved l m -> moved (f :: l) (f :: m).
Proof. induction 1; [constructor|apply (mv_swap (f :: a)); auto|econstructor; eauto]. Qed.
Lemma pairs_permuted l m : Permutation l m -> ForallOrdPairs independent l -> ForallOrdPairs independent m.
Proof.
  induction 1 as [|x l m P IH|x y l|l m n P1 IH1 P2 IH2]; intros F; auto.
  - inversion F as [|? ? A B]; subst. constructor; auto. rewrite Forall_forall in *. intros z I. apply A. eapply Permutation_in; [apply Permutation_sym, P|exact I].
  - inversion F as [|? ? A B]; subst. inversion B as [|? ? C D]; subst. inversion A as [|? ? E G]; subst. constructor; [constructor; auto; now apply independent_sym|constructor; auto].
Qed.
Theorem permuted_moved l m : Permutation l m -> ForallOrdPairs independent l -> moved l m.
Proof.
  induction 1 as [|x l m P IH|x y l|l m n P1 IH1 P2 IH2]; intros F.
  - constructor.
  - apply moved_under, IH. now inversion F.
  - apply (mv_swap []). inversion F as [|? ? A B]; subst. now inversion A.
  - eapply mv_more; [apply IH1, F|apply IH2]. eapply pairs_permuted; eauto.
Qed.
Theorem moved_run iter iter' w root root' files files' name threads duration number record pod d g p : moved files files' -> Forall self_contained files ->
  read_node (fst root) (snd root) = Some (List.concat files) -> read_node (fst root') (snd root') = Some (List.concat files') ->
  (forall src src', parse (List.concat files) = Ok src -> parse (List.concat files') = Ok src' -> name = None -> iter' (s_tests src') = iter (s_tests src)) ->
  goes g (launch iter w root name threads duration number record pod d) p -> exists p', goes g (launch iter' w root' name threads duration number record pod d) p' /\ looks_like p p'.
Proof.
  intros M F Rd Rd' It G. destruct (files_moved _ _ M F) as (_ & src & src' & P & P' & A).
  exact (alike_run iter iter' w root root' _ _ src src' name threads duration number record pod d g p P P' A Rd Rd' (It src src' P P') G).
Qed.

(** ** definitions *)
Lemma last_def_in {V} n (l : list (str * V)) d : NoDup (map fst l) -> last_def n l d <-> In (n, d) l.
Proof.
  intros N. split.
  - intros (a & b & -> & _). apply in_or_app. right. now left.
  - intros I. apply in_split in I. destruct I as (a & b & ->). exists a, b. split; auto. rewrite map_app in N. cbn [map fst] in N. apply NoDup_remove_2 in N. intros I. apply N. apply in_or_app. now right.
Qed.
Theorem items_alike text text' src src' is is' w w' : parse text = Ok src -> parse text' = Ok src' ->
  segment text = w ++ [Tok KEof []] -> reads_items is w -> segment text' = w' ++ [Tok KEof []] -> reads_items is' w' ->
  item_exprs is' = item_exprs is -> Permutation (item_requests is) (item_requests is') -> NoDup (map fst (item_requests is)) ->
  Permutation (item_tests is) (item_tests is') -> NoDup (map fst (item_tests is)) -> alike src src'.
Proof.
  intros P P' S I S' I' X R Nr T Nt. destruct (read_as _ _ _ _ P S I) as (X1 & R1 & T1), (read_as _ _ _ _ P' S' I') as (X2 & R2 & T2).
  assert (Nr' : NoDup (map fst (item_requests is'))) by (eapply Permutation_NoDup; [apply Permutation_map, R|exact Nr]).
  assert (Nt' : NoDup (map fst (item_tests is'))) by (eapply Permutation_NoDup; [apply Permutation_map, T|exact Nt]).
  split; [congruence|]. split; intros n; apply option_same; intros d.
  - rewrite R1, R2, !last_def_in by auto. split; apply Permutation_in; auto. now apply Permutation_sym.
  - rewrite T1, T2, !last_def_in by auto. split; apply Permutation_in; auto. now apply Permutation_sym.
Qed.
