(** Threads do not wait for each other: every order is possible *)
From Coq Require Import Lia.
From Verif Require Import TestProofs TextProofs RunProofs RunTop RunMore SendProofs ProcessProofs ProcessRun ProcessTop ProcessEnds ProcessOnce AsideProofs SpecProcess SpecShuffle.
Open Scope N_scope.

Definition said (a : option action) : list event := match a with Some (Does e) => [e] | _ => [] end.
(** a thread on its own, not interrupted *)
Inductive walks (stat : bool) : tester -> list event -> tester -> Prop :=
| wk_none t : walks stat t [] t
| wk_move t a u l v : tester_move stat true t = Some (a, u) -> walks stat u l v -> walks stat t (said a ++ l) v.
Lemma walks_on stat t l u a v : walks stat t l u -> tester_move stat true u = Some (a, v) -> walks stat t (l ++ said a) v.
Proof.
  induction 1 as [t|t b w l u M W IH]; intros H.
  - rewrite <- (app_nil_r (said a)). cbn [app]. rewrite app_nil_r. pose proof (wk_move stat t a v [] v H (wk_none stat v)) as X. now rewrite app_nil_r in X.
  - rewrite <- app_assoc. eapply wk_move; eauto.
Qed.
Lemma move_job stat flag t a u : tester_move stat flag t = Some (a, u) -> te_job u = te_job t.
Proof.
  unfold tester_move. destruct (te_todo t); [|intros H; injection H as _ <-; reflexivity]. destruct (te_phase t); try discriminate.
  - destruct (j_limit (te_job t)); [|discriminate]. intros H. injection H as _ <-. reflexivity.
  - intros H. injection H as _ <-. unfold iteration. destruct (eval_block _ _ _) as [[v|e| |] s]; destruct (j_limit (te_job t)); reflexivity.
Qed.
Lemma walks_job stat t l u : walks stat t l u -> te_job u = te_job t.
Proof. induction 1 as [|t a u l v M W IH]; auto. rewrite IH. eapply move_job; eauto. Qed.
(** a thread that was interrupted stops at the head of its loop *)
Definition stopped_at (stat flag : bool) (u t : tester) : Prop :=
  t = u \/ flag = false /\ te_todo t = [] /\ te_phase t = Finished /\ tester_move stat false u = Some (None, t) /\ te_todo u = [] /\ te_phase u = AtHead.
Lemma move_stopped stat flag u t a t' : stopped_at stat flag u t -> tester_move stat flag t = Some (a, t') ->
  exists u', stopped_at stat flag u' t' /\ (u' = u /\ a = None \/ tester_move stat true u = Some (a, u')).
Proof.
  intros [->|(-> & T & P & M & _)] H.
  - destruct flag; [exists t'; split; [now left|auto]|]. destruct (te_todo u) as [|x rest] eqn:T.
    + unfold tester_move in H. rewrite T in H. destruct (te_phase u) eqn:P; try discriminate H.
      * destruct (j_limit (te_job u)) as [m|] eqn:L; [|discriminate H]. pose proof H as H0. cbn [andb] in H. injection H as <- <-. exists u. split; [|auto]. right. repeat split; auto.
        unfold tester_move. rewrite T, P, L. reflexivity.
      * exists t'. split; [now left|]. right. unfold tester_move. rewrite T, P. exact H.
    + exists t'. split; [now left|]. right. unfold tester_move in *. rewrite T in *. exact H.
  - unfold tester_move in H. rewrite T, P in H. discriminate H.
Qed.

(** ** what every run is made of *)
Lemma events_app x a b : events_of x (a ++ b) = events_of x a ++ events_of x b.
Proof. apply flat_map_app. Qed.
Lemma events_other x y e : x <> y -> events_of x [(y, e)] = [].
Proof. intros N. unfold events_of. cbn [flat_map fst snd app]. destruct (who_dec y x); [congruence|reflexivity]. Qed.
Lemma events_own x e : events_of x [(x, e)] = [e].
Proof. unfold events_of. cbn [flat_map fst snd app]. destruct (who_dec x x); [reflexivity|congruence]. Qed.
Lemma events_none x l : ~ In x (map fst l) -> events_of x l = [].
Proof. induction l as [|[y e] l IH]; auto. cbn [map fst In]. intros H. change ((y, e) :: l) with ([(y, e)] ++ l). rewrite events_app, events_other, IH; auto. Qed.
Definition traced (g : setting) (flag : bool) (lg : list (who * event)) (j : job) (t : tester) : Prop :=
  exists u, walks false (new_tester g j) (events_of (Tester (j_thread j)) lg) u /\ stopped_at false flag u t.
Record made_of (g : setting) (js : list job) (first : list event) (js1 js2 : list job) (lg : list (who * event)) (p : process) : Prop := {
  mo_jobs : js = js1 ++ js2;
  mo_main : p_main p = Starting js2 /\ p_flag p = true \/ js2 = [] /\ (p_main p = Joining \/ p_main p = Gone true /\ Forall (fun t => gone t = true) (p_testers p));
  mo_log : p_log p = map (pair Main) first ++ lg;
  mo_by : Forall (fun x => exists j, In j js1 /\ fst x = Tester (j_thread j)) lg;
  mo_each : Forall2 (traced g (p_flag p) lg) js1 (p_testers p);
  mo_reported : p_reported p = false
}.
Lemma traced_job g flag lg j t : traced g flag lg j t -> te_job t = j.
Proof.
  intros (u & W & S). apply walks_job in W. change (te_job (new_tester g j)) with j in W. destruct S as [->|(_ & _ & _ & M & _)]; auto. now rewrite (move_job _ _ _ _ _ M).
Qed.
Lemma traced_else g flag lg x j t : ~ In (Tester (j_thread j)) (map fst x) -> traced g flag lg j t -> traced g flag (lg ++ x) j t.
Proof. intros N (u & W & S). exists u. split; auto. rewrite events_app, (events_none _ _ N), app_nil_r. exact W. Qed.
Lemma Forall2_in {A B} (R R' : A -> B -> Prop) l l' : (forall a b, In a l -> R a b -> R' a b) -> Forall2 R l l' -> Forall2 R' l l'.
Proof. intros H F. induction F as [|a b l l' X F IH]; constructor; [apply H; auto; now left|]. apply IH. intros; apply H; auto. now right. Qed.
Lemma made g js first d p : g_stat g = false -> (forall j, In j js -> j_file j = None) -> NoDup (map j_thread js) -> goes g (begin js first d) p -> exists js1 js2 lg, made_of g js first js1 js2 lg p.
Proof.
  intros St Nf ND G. remember (begin js first d) as p0 eqn:E0. induction G as [q|q q1 q2 G IH S].
  - subst. exists [], js, []. constructor; cbn; auto. now rewrite app_nil_r.
  - destruct (IH E0) as (js1 & js2 & lg & [Jo Ma Lg By Ea Re]). clear IH. destruct S; cbn [p_main p_flag p_log p_testers p_reported] in *.
    + destruct Ma as [[E F]|(_ & [E|[E _]])]; try discriminate E. injection E as <-. subst flag. exists (js1 ++ [j]), js0, lg. constructor; cbn [p_main p_flag p_log p_testers p_reported]; auto.
      * subst js. now rewrite <- app_assoc.
      * eapply Forall_impl; [|exact By]. intros x (k & I & F). exists k. split; auto. apply in_or_app. now left.
      * apply Forall2_app; auto. constructor; auto. exists (new_tester g j). split; [|now left]. rewrite events_none; [constructor|].
        intros I. apply in_map_iff in I. destruct I as (x & E & I). rewrite Forall_forall in By. destruct (By x I) as (k & Ik & F). rewrite F in E. injection E as E.
        subst js. rewrite map_app in ND. cbn [map] in ND. apply NoDup_remove_2 in ND. apply ND. apply in_or_app. left. rewrite <- E. now apply in_map.
    + destruct Ma as [[E F]|(_ & [E|[E _]])]; try discriminate E. injection E as <-. unfold new_tester in H. rewrite Nf in H; [discriminate H|]. rewrite Jo. apply in_or_app. right. now left.
    + destruct Ma as [[E F]|(_ & [E|[E _]])]; try discriminate E. injection E as <-. exists js1, [], lg. constructor; cbn [p_main p_flag p_log p_testers p_reported]; auto.
    + apply Forall2_app_inv_r in Ea. destruct Ea as (ja & jb & Ea & Eb & ->). inversion Eb as [|j ? jc ? Et Ec]; subst jb. subst.
      rewrite St in H0. pose proof (traced_job _ _ _ _ _ Et) as Ej. destruct Et as (u & W & Sp). destruct (move_stopped _ _ _ _ _ _ Sp H0) as (u' & Sp' & Mv).
      rewrite !map_app in ND. cbn [map] in ND. rewrite <- app_assoc in ND. cbn [app] in ND. pose proof ND as ND'. apply NoDup_remove_2 in ND.
      assert (Oth : forall k (e : event), In k ja \/ In k jc -> ~ In (Tester (j_thread k)) (map fst [(Tester (j_thread j), e)])).
      { intros k e I [E|[]]. cbn [fst] in E. injection E as E. apply ND. rewrite E. apply in_or_app. destruct I as [I|I]; [left; now apply in_map|]. right. apply in_or_app. left. now apply in_map. }
      exists (ja ++ j :: jc), js2, (lg ++ map (pair (Tester (j_thread (te_job t)))) (said a)). rewrite Ej. constructor; cbn [p_main p_flag p_log p_testers p_reported]; auto.
      * destruct Ma as [Ma|(Z & [Ma|[Ma _]])]; auto. subst mp. discriminate H.
      * destruct a as [[e| |]|]; cbn [said map]; rewrite ?app_nil_r; auto. now rewrite <- app_assoc.
      * apply Forall_app. split; auto. destruct a as [[e| |]|]; cbn [said map]; constructor; auto. exists j. split; auto. apply in_or_app. right. now left.
      * assert (K : traced g flag (lg ++ map (pair (Tester (j_thread j))) (said a)) j t').
        { exists u'. split; auto. rewrite events_app. destruct Mv as [[-> ->]|Mv]; [cbn; now rewrite app_nil_r|]. pose proof (walks_on _ _ _ _ _ _ W Mv) as X. destruct a as [[e| |]|]; cbn [said map] in *; try (rewrite events_own); exact X. }
        apply Forall2_app; [|constructor; [exact K|]].
        -- eapply Forall2_in; [|exact Ea]. intros k v I T. apply traced_else; auto. destruct a as [[e| |]|]; cbn [said map]; [apply Oth; auto|intros []..].
        -- eapply Forall2_in; [|exact Ec]. intros k v I T. apply traced_else; auto. destruct a as [[e| |]|]; cbn [said map]; [apply Oth; auto|intros []..].
    + exists js1, js2, lg. constructor; cbn [p_main p_flag p_log p_testers p_reported]; auto.
      * destruct Ma as [[E _]|Ma]; [discriminate E|auto].
      * eapply Forall2_in; [|exact Ea]. intros k v I (u & W & Sp). exists u. split; auto. destruct Sp as [->|(_ & Sp)]; [now left|right; auto].
    + congruence.
    + congruence.
    + exists js1, js2, lg. destruct Ma as [[E _]|(Z & _)]; [discriminate E|]. constructor; cbn [p_main p_flag p_log p_testers p_reported]; auto.
    + destruct Ma as [[E _]|(Z & [E|[E _]])]; discriminate E.
Qed.

(** ** every order is a run *)
Lemma all_started g first : (forall path, g_creates g path = true) -> forall js1 js2 ts d0,
  exists d1, goes g (Process (Starting (js1 ++ js2)) ts true [] [] false (map (pair Main) first) d0) (Process (Starting js2) (ts ++ map (new_tester g) js1) true [] [] false (map (pair Main) first) d1).
Proof.
  intros Cr. induction js1 as [|j js1 IH]; intros js2 ts d0; [exists d0; cbn; rewrite app_nil_r; constructor|].
  destruct (IH js2 (ts ++ [new_tester g j]) (disk_created g (te_path (new_tester g j)) d0)) as (d1 & G). rewrite <- app_assoc in G. exists d1. eapply goes_trans; [|exact G]. eapply go_step; [constructor|]. apply ps_start. auto.
Qed.
Section Turns.
Variables (g : setting) (mp : main_phase) (m : stats) (r : bool).
Hypothesis up : running mp = true.
Hypothesis plain : g_stat g = false.
Lemma walks_silent flag ts1 ts2 l t v es : walks false t es v -> es = [] -> flag = true -> forall q d, exists q1 d1, goes g (Process mp (ts1 ++ t :: ts2) flag q m r l d) (Process mp (ts1 ++ v :: ts2) flag q1 m r l d1).
Proof.
  intros W E ->. induction W as [t|t a u es v M W IH]; intros q d; [do 2 eexists; constructor|]. apply app_eq_nil in E. destruct E as [Ea Ee].
  rewrite <- plain in M. pose proof (ps_tester g mp ts1 t ts2 true q m r l d _ _ up M) as S. destruct (IH Ee (match a with Some (Sends rs) => q ++ [rs] | _ => q end) (disk_after t a d)) as (q1 & d1 & G).
  exists q1, d1. eapply goes_trans; [|exact G]. eapply go_step; [constructor|]. destruct a as [[e| |]|]; try discriminate Ea; exact S.
Qed.
Lemma all_silent l : forall ts vs, Forall2 (fun t v => walks false t [] v) ts vs -> forall ts0 q d,
  exists q1 d1, goes g (Process mp (ts0 ++ ts) true q m r l d) (Process mp (ts0 ++ vs) true q1 m r l d1).
Proof.
  induction 1 as [|t v ts vs W _ IH]; intros ts0 q d; [do 2 eexists; constructor|].
  destruct (walks_silent true ts0 ts l t v [] W eq_refl eq_refl q d) as (q1 & d1 & G1). destruct (IH (ts0 ++ [v]) q1 d1) as (q2 & d2 & G2). rewrite <- !app_assoc in G2. cbn [app] in G2.
  exists q2, d2. eapply goes_trans; eauto.
Qed.
Lemma walks_says ts1 ts2 l t v es e es1 : walks false t es v -> es = e :: es1 -> forall q d,
  exists u q1 d1, goes g (Process mp (ts1 ++ t :: ts2) true q m r l d) (Process mp (ts1 ++ u :: ts2) true q1 m r (l ++ [(Tester (j_thread (te_job t)), e)]) d1) /\ walks false u es1 v /\ te_job u = te_job t.
Proof.
  intros W E. induction W as [t|t a u es v M W IH]; intros q d; [discriminate E|]. pose proof (move_job _ _ _ _ _ M) as J. pose proof M as M0. rewrite <- plain in M. pose proof (ps_tester g mp ts1 t ts2 true q m r l d _ _ up M) as S.
  assert (C : said a = [] /\ es = e :: es1 \/ a = Some (Does e) /\ es = es1) by (destruct a as [[x| |]|]; cbn in E; auto; injection E as -> ->; auto).
  destruct C as [[Ea Ee]|[-> ->]].
  - destruct (IH Ee (match a with Some (Sends rs) => q ++ [rs] | _ => q end) (disk_after t a d)) as (u1 & q1 & d1 & G & W1 & J1). exists u1, q1, d1. rewrite <- J. split; [|split; congruence || auto].
    eapply goes_trans; [|exact G]. eapply go_step; [constructor|]. destruct a as [[x| |]|]; try discriminate Ea; exact S.
  - do 3 eexists. split; [eapply go_step; [constructor|exact S]|auto].
Qed.
Definition own (t : tester) : who := Tester (j_thread (te_job t)).
Lemma replay : forall lg ts vs, Forall2 (fun t v => walks false t (events_of (own t) lg) v) ts vs -> NoDup (map (fun t => j_thread (te_job t)) ts) -> Forall (fun x => exists t, In t ts /\ fst x = own t) lg ->
  forall q l d, exists q1 d1, goes g (Process mp ts true q m r l d) (Process mp vs true q1 m r (l ++ lg) d1).
Proof.
  induction lg as [|[x e] lg IH]; intros ts vs F ND By q l d.
  - rewrite app_nil_r. apply (all_silent l ts vs F []).
  - inversion By as [|? ? (t & I & Ex) By']; subst. cbn [fst] in Ex. subst x. apply in_split in I. destruct I as (ts1 & ts2 & ->).
    apply Forall2_app_inv_l in F. destruct F as (vs1 & vs0 & F1 & F0 & ->). inversion F0 as [|? v ? vs2 Ft F2]; subst.
    assert (Et : events_of (own t) ((own t, e) :: lg) = e :: events_of (own t) lg) by (change ((own t, e) :: lg) with ([(own t, e)] ++ lg); now rewrite events_app, events_own).
    rewrite map_app in ND. cbn [map] in ND. pose proof (NoDup_remove_2 _ _ _ ND) as N2.
    assert (Oth : forall s, In s ts1 \/ In s ts2 -> events_of (own s) ((own t, e) :: lg) = events_of (own s) lg).
    { intros s H. change ((own t, e) :: lg) with ([(own t, e)] ++ lg). rewrite events_app, events_other; auto. intros E. injection E as E. apply N2. rewrite <- E. apply in_or_app. destruct H as [H|H]; [left|right]; apply in_map_iff; eauto. }
    destruct (walks_says ts1 ts2 l t v _ e _ Ft Et q d) as (u & q1 & d1 & G & W & J).
    destruct (IH (ts1 ++ u :: ts2) (vs1 ++ v :: vs2)) with (q := q1) (l := l ++ [(own t, e)]) (d := d1) as (q2 & d2 & G2).
    + apply Forall2_app; [|constructor].
      * eapply Forall2_in; [|exact F1]. cbv beta. intros s w H X. rewrite Oth in X; auto.
      * unfold own in *. rewrite J. exact W.
      * eapply Forall2_in; [|exact F2]. cbv beta. intros s w H X. rewrite Oth in X; auto.
    + rewrite map_app. cbn [map]. rewrite J. exact ND.
    + eapply Forall_impl; [|exact By']. intros y (s & H & Ey). apply in_app_or in H. destruct H as [H|[H|H]].
      * exists s. split; auto. apply in_or_app. auto.
      * subst s. exists u. split; [apply in_or_app; right; now left|]. unfold own in *. now rewrite J.
      * exists s. split; auto. apply in_or_app. right. now right.
    + exists q2, d2. rewrite <- app_assoc in G2. cbn [app] in G2. eapply goes_trans; [exact G|exact G2].
Qed.
Lemma all_stopped l : forall us ts, Forall2 (stopped_at false false) us ts -> forall ts0 q d,
  exists q1 d1, goes g (Process mp (ts0 ++ us) false q m r l d) (Process mp (ts0 ++ ts) false q1 m r l d1).
Proof.
  induction 1 as [|u t us ts S _ IH]; intros ts0 q d; [do 2 eexists; constructor|].
  destruct (IH (ts0 ++ [t]) q d) as (q2 & d2 & G2). rewrite <- !app_assoc in G2. cbn [app] in G2. exists q2, d2.
  destruct S as [->|(_ & _ & _ & M & _)]; [exact G2|]. eapply goes_trans; [|exact G2]. eapply go_step; [constructor|].
  assert (M' : tester_move (g_stat g) false u = Some (None, t)) by (rewrite plain; exact M). exact (ps_tester g mp ts0 u us false q m r l d _ _ up M').
Qed.
End Turns.

Lemma events_main x l : x <> Main -> events_of x (map (pair Main) l) = [].
Proof. intros N. apply events_none. intros I. apply in_map_iff in I. destruct I as ([y e] & E & I). apply in_map_iff in I. destruct I as (z & F & _). injection F as <- _. cbn in E. congruence. Qed.
Lemma events_mains l : events_of Main (map (pair Main) l) = l.
Proof. induction l as [|e l IH]; [reflexivity|]. cbn [map]. change ((Main, e) :: map (pair Main) l) with ([(Main, e)] ++ map (pair Main) l). rewrite events_app, events_own, IH. reflexivity. Qed.
Lemma events_in x e l : In (x, e) l -> In e (events_of x l).
Proof. intros I. unfold events_of. apply in_flat_map. exists (x, e). split; auto. cbn [fst snd]. destruct (who_dec x x); [now left|congruence]. Qed.
Lemma in_events x e l : In e (events_of x l) -> In (x, e) l.
Proof. unfold events_of. intros I. apply in_flat_map in I. destruct I as ([y z] & I & J). cbn [fst snd] in J. destruct (who_dec y x) as [->|]; [|contradiction J]. destruct J as [->|[]]. exact I. Qed.
Lemma split_traced g flag lg : forall js ts, Forall2 (traced g flag lg) js ts -> exists us, Forall2 (fun j u => walks false (new_tester g j) (events_of (Tester (j_thread j)) lg) u) js us /\ Forall2 (stopped_at false flag) us ts.
Proof. induction 1 as [|j t js ts (u & W & S) _ (us & A & B)]; [exists []; auto|]. exists (u :: us). split; constructor; auto. Qed.
Lemma unstopped us ts : Forall2 (stopped_at false true) us ts -> us = ts.
Proof. induction 1 as [|u t us ts S _ IH]; auto. destruct S as [->|(E & _)]; [now rewrite IH|discriminate E]. Qed.
Lemma nodup_front {A} (a b : list A) : NoDup (a ++ b) -> NoDup a.
Proof. induction a as [|x a IH]; cbn; intros H; [constructor|]. inversion H as [|? ? N D]; subst. constructor; auto. intros I. apply N, in_or_app. now left. Qed.
Lemma shuffle_jobs g js first d p l' : g_stat g = false -> (forall path, g_creates g path = true) -> (forall j, In j js -> j_file j = None) -> NoDup (map j_thread js) ->
  goes g (begin js first d) p -> reordered (p_log p) l' ->
  exists p', goes g (begin js first d) p' /\ p_log p' = l' /\ p_flag p' = p_flag p /\ p_main p' = p_main p /\ p_testers p' = p_testers p.
Proof.
  intros St Cr Nf ND G ((lg' & El & By') & Ev). destruct (made g js first d p St Nf ND G) as (js1 & js2 & lg & [Jo Ma Lg By Ea Re]).
  assert (Ef : events_of Main (p_log p) = first).
  { rewrite Lg, events_app, events_mains, (events_none Main lg), app_nil_r; auto. intros I. apply in_map_iff in I. destruct I as (x & E & I). rewrite Forall_forall in By. destruct (By x I) as (k & _ & F). congruence. }
  rewrite Ef in El. subst l'.
  assert (Ev' : forall id, events_of (Tester id) lg' = events_of (Tester id) lg).
  { intros id. specialize (Ev id). rewrite Lg, !events_app, !events_main in Ev by discriminate. exact Ev. }
  assert (ND1 : NoDup (map j_thread js1)) by (subst js; rewrite map_app in ND; eapply nodup_front; exact ND).
  destruct (split_traced _ _ _ _ _ Ea) as (us & Wk & Sp).
  assert (Wk' : Forall2 (fun t v => walks false t (events_of (own t) lg') v) (map (new_tester g) js1) us).
  { clear -Wk Ev'. induction Wk as [|j u js us W _ IH]; cbn [map]; constructor; auto. unfold own. change (te_job (new_tester g j)) with j. now rewrite Ev'. }
  assert (ND2 : NoDup (map (fun t => j_thread (te_job t)) (map (new_tester g) js1))) by (rewrite map_map; exact ND1).
  assert (By2 : Forall (fun x => exists t, In t (map (new_tester g) js1) /\ fst x = own t) lg').
  { rewrite Forall_forall in *. intros [x e] I. destruct (By' _ I) as (id & E). cbn [fst] in E. subst x. apply events_in in I. rewrite Ev' in I. apply in_events in I. destruct (By _ I) as (k & Ik & F). exists (new_tester g k). split; [now apply in_map|exact F]. }
  destruct (all_started g first Cr js1 js2 [] d) as (d1 & G1). rewrite <- Jo in G1. cbn [app] in G1. change (Process (Starting js) [] true [] [] false (map (pair Main) first) d) with (begin js first d) in G1.
  destruct p as [mp ts flag q0 m0 r0 l0 d0]. cbn [p_main p_flag p_log p_testers p_reported] in *. destruct Ma as [[-> ->]|(-> & Ma)].
  - apply unstopped in Sp. subst us. destruct (replay g (Starting js2) [] false eq_refl St lg' _ _ Wk' ND2 By2 [] (map (pair Main) first) d1) as (q2 & d2 & G2).
    eexists. split; [eapply goes_trans; [exact G1|exact G2]|]. auto.
  - assert (G2 : goes g (begin js first d) (Process Joining (map (new_tester g) js1) true [] [] false (map (pair Main) first) d1)) by (eapply go_step; [exact G1|apply ps_started]).
    destruct (replay g Joining [] false eq_refl St lg' _ _ Wk' ND2 By2 [] (map (pair Main) first) d1) as (q3 & d3 & G3).
    assert (G4 : exists q4 d4, goes g (begin js first d) (Process Joining ts flag q4 [] false (map (pair Main) first ++ lg') d4)).
    { destruct flag.
      - apply unstopped in Sp. subst us. do 2 eexists. eapply goes_trans; [exact G2|exact G3].
      - destruct (all_stopped g Joining [] false eq_refl St (map (pair Main) first ++ lg') us ts Sp [] q3 d3) as (q4 & d4 & G4). cbn [app] in G4. exists q4, d4. eapply goes_trans; [exact G2|]. eapply goes_trans; [exact G3|]. eapply goes_trans; [|exact G4]. eapply go_step; [constructor|apply ps_stop]. }
    destruct G4 as (q4 & d4 & G4). destruct Ma as [->|[-> Go]].
    + eexists. split; [exact G4|]. auto.
    + eexists. split; [eapply go_step; [exact G4|apply ps_exit; auto]|]. auto.
Qed.

(** ** runs of the command *)
Lemma launch_begins iter w root name threads duration number pod d : numbered_apart iter w root name ->
  let p := launch iter w root name threads duration number false pod d in
  (exists js first, p = begin js first d /\ (forall j, In j js -> j_file j = None) /\ NoDup (map j_thread js)) \/
  (forall g q, goes g p q -> q = p) /\ exists first, p_log p = map (pair Main) first.
Proof.
  intros Ap. cbv zeta. unfold launch. destruct (read_node (fst root) (snd root)) as [text|] eqn:R.
  2: { right. split; [|exists []; reflexivity]. intros g q G. remember (Process _ _ _ _ _ _ _ _) as p eqn:E. induction G as [|p p1 p2 G IH S]; auto. specialize (IH E). subst. inversion S; discriminate. }
  unfold main_test, test_command.
  assert (Stuck_ : forall m l, (m = Stuck \/ exists b, m = Gone b) -> (forall g q, goes g (Process m [] true [] [] false l d) q -> q = Process m [] true [] [] false l d)).
  { intros m l M g q G. remember (Process m [] true [] [] false l d) as p eqn:E. induction G as [|p p1 p2 G IH S]; auto. specialize (IH E). subst. destruct M as [->|[b ->]]; inversion S; subst; try discriminate; destruct ts1; discriminate. }
  unfold test_setup. destruct (parse text) as [src|e| |] eqn:P.
  2-4: right; split; [apply Stuck_; eauto|eexists; reflexivity].
  set (s0 := upd _ _). destruct (eval_block w (s_exprs src) s0) as [[v|e| |] s1] eqn:Ev.
  2-4: right; split; [apply Stuck_; eauto|eexists; reflexivity].
  destruct name as [name|].
  - destruct (mget name (s_tests src)) as [body|].
    + destruct (maximun_of _ threads) as [m|e| |]; [|right; split; [apply Stuck_; eauto|eexists; reflexivity]..].
      left. eexists _, _. split; [reflexivity|]. split; [|apply named_distinct]. intros j I. now apply named_shape in I.
    + left. eexists [], _. split; [reflexivity|]. split; [intros j []|constructor].
  - left. eexists _, _. split; [reflexivity|].
    assert (F : N.of_nat (length (iter (s_tests src))) <= 2 ^ 32) by (apply (Ap eq_refl src s1); exists text, v; auto).
    split; [|now apply all_distinct]. intros j I. now apply (all_shape _ _ _ F) in I.
Qed.
Lemma shuffle_off g iter w root name threads duration number pod d p l' : g_stat g = false -> (forall path, g_creates g path = true) -> numbered_apart iter w root name ->
  goes g (launch iter w root name threads duration number false pod d) p -> reordered (p_log p) l' ->
  exists p', goes g (launch iter w root name threads duration number false pod d) p' /\ p_log p' = l' /\ p_flag p' = p_flag p /\ p_main p' = p_main p.
Proof.
  intros St Cr Ap G Re. destruct (launch_begins iter w root name threads duration number pod d Ap) as [(js & first & E & Nf & ND)|[E (first & Lf)]].
  - rewrite E in *. destruct (shuffle_jobs g js first d p l' St Cr Nf ND G Re) as (p' & A & B & C & D & _). exists p'. auto.
  - rewrite (E g p G) in *. eexists. split; [constructor|]. split; auto. destruct Re as ((rest & -> & By) & Ev). rewrite Lf in *. rewrite events_mains in *.
    destruct rest as [|[x e] rest]; [now rewrite app_nil_r|]. exfalso. inversion By as [|? ? (id & X) _]; subst. cbn [fst] in X. subst x. specialize (Ev id). rewrite events_app, events_main in Ev by discriminate.
    change ((Tester id, e) :: rest) with ([(Tester id, e)] ++ rest) in Ev. rewrite events_app, events_own in Ev. discriminate Ev.
Qed.
Lemma tests_events x l : x <> Collector -> events_of x (tests_part l) = events_of x l.
Proof.
  intros N. induction l as [|[y e] l IH]; auto. unfold tests_part in *. cbn [filter fst]. change ((y, e) :: l) with ([(y, e)] ++ l). rewrite events_app. destruct y.
  1,2: change (?z :: filter ?f l) with ([z] ++ filter f l); rewrite events_app, IH; reflexivity.
  rewrite IH, events_other; auto.
Qed.
Theorem shuffle_run g iter w root name threads duration number record pod d p l' : (forall path, g_creates g path = true) -> numbered_apart iter w root name ->
  goes g (launch iter w root name threads duration number record pod d) p -> reordered (p_log p) l' ->
  exists p', goes g (launch iter w root name threads duration number record pod d) p' /\ tests_part (p_log p') = l' /\ p_flag p' = p_flag p /\ (forall b, p_main p = Gone b -> p_main p' = Gone b).
Proof.
  intros Cr Ap G Re. set (g0 := Setting false (g_dir g) (g_creates g) (g_accepts g) (g_world g) (g_order g) (g_heeds g)).
  assert (W : same_worlds g g0) by (intros id; reflexivity).
  destruct (aside_off g g0 _ _ _ _ _ _ _ _ _ pod _ d _ W eq_refl G) as (p0 & G0 & L0 & F0 & _ & M0).
  assert (Re0 : reordered (p_log p0) l').
  { destruct Re as (A & B). split; rewrite L0; [now rewrite tests_events by discriminate|]. intros id. now rewrite tests_events by discriminate. }
  destruct (shuffle_off g0 _ _ _ _ _ _ _ _ _ _ _ eq_refl Cr Ap G0 Re0) as (p1 & G1 & L1 & F1 & M1).
  destruct (aside_on g g0 _ _ _ _ _ _ _ record pod pod d _ _ W eq_refl Cr G1) as (p2 & G2 & L2 & F2 & M2).
  exists p2. split; auto. split; [congruence|]. split; [congruence|]. intros b E. apply M2. rewrite M1. now apply M0.
Qed.
(** and every run is ordered like this *)
Theorem run_ordered g iter w root name threads duration number record pod d p : numbered_apart iter w root name ->
  goes g (launch iter w root name threads duration number record pod d) p -> reordered (p_log p) (tests_part (p_log p)).
Proof.
  intros Ap G. set (g0 := Setting false (g_dir g) (g_creates g) (g_accepts g) (g_world g) (g_order g) (g_heeds g)).
  assert (W : same_worlds g g0) by (intros id; reflexivity).
  destruct (aside_off g g0 _ _ _ _ _ _ _ _ _ pod _ d _ W eq_refl G) as (p0 & G0 & L0 & _).
  split; [|intros id; now rewrite tests_events by discriminate]. rewrite <- (tests_events Main) by discriminate. rewrite <- L0.
  destruct (launch_begins iter w root name threads duration number pod d Ap) as [(js & first & E & Nf & ND)|[E (first & Lf)]].
  - rewrite E in G0. destruct (made g0 js first d p0 eq_refl Nf ND G0) as (js1 & js2 & lg & [_ _ Lg By _ _]).
    assert (T : Forall (fun x : who * event => exists id, fst x = Tester id) lg) by (eapply Forall_impl; [|exact By]; intros x (j & _ & F); eauto).
    exists lg. split; auto. rewrite Lg at 1. f_equal. f_equal. rewrite Lg, events_app, events_mains, (events_none Main lg), app_nil_r; auto.
    intros I. apply in_map_iff in I. destruct I as (x & X & I). rewrite Forall_forall in T. destruct (T x I). congruence.
  - rewrite (E g0 p0 G0), Lf, events_mains. exists []. split; [now rewrite app_nil_r|constructor].
Qed.

(** ** all runs agree about every thread *)
Lemma walks_agree stat t l u : walks stat t l u -> forall l' u', walks stat t l' u' -> (exists x, walks stat u x u' /\ l' = l ++ x) \/ (exists x, walks stat u' x u /\ l = l' ++ x).
Proof.
  induction 1 as [t|t a u l v M W IH]; intros l' u' H; [left; exists l'; auto|]. inversion H as [|? b w l1 ? M1 W1]; subst.
  - right. exists (said a ++ l). split; auto. econstructor; eauto.
  - rewrite M in M1. injection M1 as <- <-. destruct (IH _ _ W1) as [(x & X & ->)|(x & X & ->)]; [left|right]; exists x; split; auto; apply app_assoc.
Qed.
Lemma gone_still stat t x u : gone t = true -> walks stat t x u -> x = [] /\ u = t.
Proof.
  intros G W. inversion W as [|? a v l ? M W1]; subst; auto. exfalso. unfold gone in G. unfold tester_move in M. destruct (te_todo t); [|destruct (te_phase t); discriminate G]. destruct (te_phase t); try discriminate G; discriminate M.
Qed.
Lemma made_events g js first js1 js2 lg p : made_of g js first js1 js2 lg p ->
  events_of Main (p_log p) = first /\ forall id, events_of (Tester id) (p_log p) = events_of (Tester id) lg.
Proof.
  intros [_ _ Lg By _ _]. split.
  - rewrite Lg, events_app, events_mains, (events_none Main lg), app_nil_r; auto. intros I. apply in_map_iff in I. destruct I as (x & E & I). rewrite Forall_forall in By. destruct (By x I) as (k & _ & F). congruence.
  - intros id. rewrite Lg, events_app, events_main by discriminate. reflexivity.
Qed.
Lemma made_thread g js first js1 js2 lg p id : made_of g js first js1 js2 lg p -> events_of (Tester id) lg = [] \/ exists j t, In j js1 /\ In t (p_testers p) /\ j_thread j = id /\ traced g (p_flag p) lg j t.
Proof.
  intros [_ _ _ By Ea _]. destruct (events_of (Tester id) lg) as [|e es] eqn:E; auto. right. assert (I : In (Tester id, e) lg) by (apply in_events; rewrite E; now left).
  rewrite Forall_forall in By. destruct (By _ I) as (j & Ij & F). cbn [fst] in F. injection F as F. clear -Ea Ij F. induction Ea as [|k t ks ts T _ IH]; [contradiction Ij|].
  destruct Ij as [->|Ij]; [exists j, t; cbn; auto|]. destruct (IH Ij) as (k' & t' & A & B & C & D). exists k', t'. cbn. auto.
Qed.
Lemma same_job js j k : NoDup (map j_thread js) -> In j js -> In k js -> j_thread j = j_thread k -> j = k.
Proof.
  induction js as [|x js IH]; intros ND Ij Ik E; [contradiction Ij|]. inversion ND as [|? ? N D]; subst. destruct Ij as [->|Ij], Ik as [->|Ik]; auto; exfalso; apply N.
  - rewrite E. now apply in_map.
  - rewrite <- E. now apply in_map.
Qed.
Lemma jobs_agree g js first d p d' p' : g_stat g = false -> (forall j, In j js -> j_file j = None) -> NoDup (map j_thread js) -> goes g (begin js first d) p -> goes g (begin js first d') p' ->
  events_of Main (p_log p) = events_of Main (p_log p') /\
  (forall id, starts_with (events_of (Tester id) (p_log p)) (events_of (Tester id) (p_log p')) \/ starts_with (events_of (Tester id) (p_log p')) (events_of (Tester id) (p_log p))) /\
  (p_main p = Gone true -> p_flag p = true -> forall id, starts_with (events_of (Tester id) (p_log p')) (events_of (Tester id) (p_log p))).
Proof.
  intros St Nf ND G G'. destruct (made g js first d p St Nf ND G) as (a1 & a2 & lg & Mo). destruct (made g js first d' p' St Nf ND G') as (b1 & b2 & lg' & Mo').
  destruct (made_events _ _ _ _ _ _ _ Mo) as (Em & Et). destruct (made_events _ _ _ _ _ _ _ Mo') as (Em' & Et'). split; [congruence|].
  assert (Both : forall id j t j' t', In j a1 -> In t (p_testers p) -> j_thread j = id -> traced g (p_flag p) lg j t -> In j' b1 -> In t' (p_testers p') -> j_thread j' = id -> traced g (p_flag p') lg' j' t' ->
    exists u u', stopped_at false (p_flag p) u t /\ ((exists x, walks false u x u' /\ events_of (Tester id) lg' = events_of (Tester id) lg ++ x) \/ (exists x, walks false u' x u /\ events_of (Tester id) lg = events_of (Tester id) lg' ++ x))).
  { intros id j t j' t' I It E (u & W & Sp) I' It' E' (u' & W' & Sp'). assert (j' = j).
    { eapply same_job; [exact ND|rewrite (mo_jobs _ _ _ _ _ _ _ Mo')|rewrite (mo_jobs _ _ _ _ _ _ _ Mo)|congruence]; apply in_or_app; auto. }
    subst j'. rewrite E in W, W'. exists u, u'. split; auto. exact (walks_agree _ _ _ _ W _ _ W'). }
  split.
  - intros id. rewrite Et, Et'. destruct (made_thread _ _ _ _ _ _ _ id Mo) as [->|(j & t & I & It & E & T)]; [left; eexists; reflexivity|].
    destruct (made_thread _ _ _ _ _ _ _ id Mo') as [->|(j' & t' & I' & It' & E' & T')]; [right; eexists; reflexivity|].
    destruct (Both id j t j' t') as (u & u' & _ & [(x & _ & X)|(x & _ & X)]); auto; [left|right]; exists x; exact X.
  - intros Mg Fl id. rewrite Et, Et'. destruct (made_thread _ _ _ _ _ _ _ id Mo') as [->|(j' & t' & I' & It' & E' & T')]; [eexists; reflexivity|].
    destruct (mo_main _ _ _ _ _ _ _ Mo) as [[X _]|(Z & [X|[_ Go]])]; [rewrite Mg in X; discriminate X..|].
    assert (I : In j' a1) by (assert (A : In j' js) by (rewrite (mo_jobs _ _ _ _ _ _ _ Mo'); apply in_or_app; auto); rewrite (mo_jobs _ _ _ _ _ _ _ Mo), Z, app_nil_r in A; exact A).
    assert (Pick : exists t, In t (p_testers p) /\ traced g (p_flag p) lg j' t).
    { pose proof (mo_each _ _ _ _ _ _ _ Mo) as Ea. clear -Ea I. induction Ea as [|k t ks ts T _ IH]; [contradiction I|]. destruct I as [->|I]; [exists t; cbn; auto|]. destruct (IH I) as (t' & A & B). exists t'. cbn. auto. }
    destruct Pick as (t & It & T). destruct (Both id j' t j' t') as (u & u' & Sp & [(x & W & X)|(x & _ & X)]); auto; [|exists x; exact X].
    destruct Sp as [->|(F & _)]; [|congruence]. rewrite Forall_forall in Go. destruct (gone_still _ _ _ _ (Go _ It) W) as [-> _]. exists []. now rewrite app_nil_r, X, app_nil_r.
Qed.
Theorem runs_agree g iter w root name threads duration number record record' pod pod' d d' p p' : numbered_apart iter w root name ->
  goes g (launch iter w root name threads duration number record pod d) p -> goes g (launch iter w root name threads duration number record' pod' d') p' ->
  events_of Main (p_log p) = events_of Main (p_log p') /\
  (forall id, starts_with (events_of (Tester id) (p_log p)) (events_of (Tester id) (p_log p')) \/ starts_with (events_of (Tester id) (p_log p')) (events_of (Tester id) (p_log p))) /\
  ((forall path, g_creates g path = true) -> p_main p = Gone true -> p_flag p = true -> forall id, starts_with (events_of (Tester id) (p_log p')) (events_of (Tester id) (p_log p))).
Proof.
  intros Ap G G'. set (g0 := Setting false (g_dir g) (g_creates g) (g_accepts g) (g_world g) (g_order g) (g_heeds g)).
  assert (W : same_worlds g g0) by (intros id; reflexivity).
  destruct (aside_off g g0 _ _ _ _ _ _ _ _ _ pod _ d _ W eq_refl G) as (p0 & G0 & L0 & F0 & _ & M0).
  destruct (aside_off g g0 _ _ _ _ _ _ _ _ _ pod _ d _ W eq_refl G') as (p0' & G0' & L0' & F0' & _).
  assert (E : forall x, x <> Collector -> events_of x (p_log p0) = events_of x (p_log p)) by (intros x N; rewrite L0; now apply tests_events).
  assert (E' : forall x, x <> Collector -> events_of x (p_log p0') = events_of x (p_log p')) by (intros x N; rewrite L0'; now apply tests_events).
  rewrite <- E, <- E' by discriminate.
  assert (K : events_of Main (p_log p0) = events_of Main (p_log p0') /\
    (forall id, starts_with (events_of (Tester id) (p_log p0)) (events_of (Tester id) (p_log p0')) \/ starts_with (events_of (Tester id) (p_log p0')) (events_of (Tester id) (p_log p0))) /\
    (p_main p0 = Gone true -> p_flag p0 = true -> forall id, starts_with (events_of (Tester id) (p_log p0')) (events_of (Tester id) (p_log p0)))).
  { destruct (launch_begins iter w root name threads duration number pod d Ap) as [(js & first & B & Nf & ND)|[B (first & Lf)]].
    - rewrite B in G0, G0'. eapply jobs_agree; eauto. reflexivity.
    - rewrite (B g0 p0 G0), (B g0 p0' G0'). split; auto. assert (R : forall l : list event, starts_with l l) by (intros l; exists []; now rewrite app_nil_r). auto. }
  destruct K as (A & B & C). split; auto. split.
  - intros id. rewrite <- E, <- E' by discriminate. apply B.
  - intros Cr Mg Fl id. rewrite <- E, <- E' by discriminate. apply C; [now apply M0|congruence].
Qed.
(** what is printed and sent by runs that end undisturbed: any one of them, in all its orders *)
Theorem runs_shuffled g iter w root name threads duration number record pod d p : (forall path, g_creates g path = true) -> numbered_apart iter w root name ->
  goes g (launch iter w root name threads duration number record pod d) p -> p_main p = Gone true -> p_flag p = true -> forall l,
  reordered (p_log p) l <-> exists p', goes g (launch iter w root name threads duration number record pod d) p' /\ p_main p' = Gone true /\ p_flag p' = true /\ tests_part (p_log p') = l.
Proof.
  intros Cr Ap G Mg Fl l. split.
  - intros Re. destruct (shuffle_run g _ _ _ _ _ _ _ _ _ _ _ _ Cr Ap G Re) as (p' & A & B & C & D). exists p'. split; auto. split; [now apply D|]. split; [congruence|auto].
  - intros (p' & G' & Mg' & Fl' & <-). destruct (runs_agree g _ _ _ _ _ _ _ _ _ _ _ _ _ _ _ Ap G G') as (Em & _ & A). destruct (runs_agree g _ _ _ _ _ _ _ _ _ _ _ _ _ _ _ Ap G' G) as (_ & _ & B).
    destruct (run_ordered g _ _ _ _ _ _ _ _ _ _ _ Ap G') as (T & _). split; [now rewrite Em|]. intros id. rewrite tests_events by discriminate.
    destruct (A Cr Mg Fl id) as (x & X), (B Cr Mg' Fl' id) as (y & Y). assert (Z : x = []).
    { apply (f_equal (@length _)) in X, Y. rewrite app_length in X, Y. destruct x; auto. cbn [length] in X. lia. }
    now rewrite X, Z, app_nil_r.
Qed.
