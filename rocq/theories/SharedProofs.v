(** Runs against a server that all threads share *)
From Coq Require Import Lia.
From Verif Require Import TextProofs RunProofs ProcessProofs ProcessRun ProcessTop ProcessOnce AsideProofs ShuffleProofs CausalProofs SpecProcess SpecShared.
Open Scope N_scope.

(** ** a run can always be continued *)
Definition with_answer (g : setting) (id : N) (own : list event) (msg : str) (x : exchange) : setting :=
  Setting (g_stat g) (g_dir g) (g_creates g) (g_accepts g)
    (fun i => if i =? id then Env (e_host (g_world g i)) (e_prepare (g_world g i)) (fun t m => if list_eq_dec event_dec t own then if list_eq_dec N.eq_dec m msg then x else e_net (g_world g i) t m else e_net (g_world g i) t m) else g_world g i)
    (g_order g) (g_heeds g).
Lemma with_networks g id own msg x : other_networks g (with_answer g id own msg x).
Proof. repeat split; cbn; destruct (id0 =? id); reflexivity. Qed.
Lemma with_here g id own msg x : e_net (g_world (with_answer g id own msg x) id) own msg = x.
Proof. cbn. rewrite N.eqb_refl. cbn. destruct (list_eq_dec event_dec own own); [|congruence]. destruct (list_eq_dec N.eq_dec msg msg); [reflexivity|congruence]. Qed.
Lemma with_else g id own msg x i t m : (i = id -> t ++ [Sent m] <> own ++ [Sent msg]) -> e_net (g_world (with_answer g id own msg x) i) t m = e_net (g_world g i) t m.
Proof.
  intros N. cbn. destruct (N.eqb_spec i id) as [->|]; [|reflexivity]. cbn. destruct (list_eq_dec event_dec t own) as [->|]; auto. destruct (list_eq_dec N.eq_dec m msg) as [->|]; auto. exfalso. now apply N.
Qed.
Lemma shared_step (P : setting -> Prop) v g iter w root name threads duration number record pod d p q : (forall path, g_creates g path = true) -> numbered_apart iter w root name ->
  goes g (launch iter w root name threads duration number record pod d) p -> answered_by v g (p_log p) -> process_step g p q -> P g -> (forall id own msg l, P (with_answer g id own msg (v l id msg))) ->
  exists g' q', other_networks g g' /\ goes g' (launch iter w root name threads duration number record pod d) q' /\ tests_part (p_log q') = tests_part (p_log q) /\ p_flag q' = p_flag q /\ answered_by v g' (p_log q') /\ P g'.
Proof.
  intros Cr Ap G An S Pg Pw.
  assert (C : tests_part (p_log q) = tests_part (p_log p) \/ exists id e, p_log q = p_log p ++ [(Tester id, e)]).
  { destruct S; cbn [p_log]; auto; [|left; rewrite tests_app; cbn; now rewrite app_nil_r]. destruct a as [[e| |]|]; eauto. }
  assert (Gq : goes g (launch iter w root name threads duration number record pod d) q) by (econstructor; eauto).
  assert (Stay : answered_by v g (p_log q) -> exists g' q', other_networks g g' /\ goes g' (launch iter w root name threads duration number record pod d) q' /\ tests_part (p_log q') = tests_part (p_log q) /\ p_flag q' = p_flag q /\ answered_by v g' (p_log q') /\ P g').
  { intros A. exists g, q. split; [repeat split|]. auto 6. }
  destruct C as [C|(id & e & C)]; [apply Stay; unfold answered_by; now rewrite C|].
  assert (Cp : tests_part (p_log q) = tests_part (p_log p) ++ [(Tester id, e)]) by now rewrite C, tests_app.
  destruct e as [txt|msg].
  - apply Stay. intros l1 i m l2 E. rewrite Cp in E. destruct l2 as [|y l2] using rev_ind; [apply app_inj_tail in E; destruct E as [_ E]; discriminate E|].
    rewrite app_comm_cons, app_assoc in E. apply app_inj_tail in E. destruct E as [E _]. eapply An; eauto.
  - set (own := events_of (Tester id) (tests_part (p_log p))). set (g' := with_answer g id own msg (v (tests_part (p_log p)) id msg)).
    assert (Eq : forall i, events_of (Tester i) (p_log q) = events_of (Tester i) (tests_part (p_log p)) ++ events_of (Tester i) [(Tester id, Sent msg)]) by (intros i; rewrite <- (tests_events (Tester i) (p_log q)), Cp, events_app by discriminate; reflexivity).
    destruct (causal_run g g' iter w root name threads duration number record record pod pod d d q) as (q' & G' & L' & F'); auto.
    + intros i. split; [apply with_networks|]. intros t m _ N. apply with_else. intros ->. rewrite Eq, events_own in N. exact N.
    + exists g', q'. split; [apply with_networks|]. split; auto. split; auto. split; auto. split; [|apply Pw]. intros l1 i m l2 E. rewrite L', Cp in E. destruct l2 as [|y l2] using rev_ind.
      * apply app_inj_tail in E. destruct E as [<- E]. injection E as <- <-. apply with_here.
      * clear IHl2. rewrite app_comm_cons, app_assoc in E. apply app_inj_tail in E. destruct E as [E _]. rewrite <- (An l1 i m l2 E). apply with_else. intros ->. unfold own. rewrite E. change ((Tester id, Sent m) :: l2) with ([(Tester id, Sent m)] ++ l2). rewrite !events_app, events_own.
        intros X. apply (f_equal (@length _)) in X. rewrite !app_length in X. cbn [length] in X. lia.
Qed.
Theorem shared_continues v g iter w root name threads duration number record pod d p q : (forall path, g_creates g path = true) -> numbered_apart iter w root name ->
  goes g (launch iter w root name threads duration number record pod d) p -> answered_by v g (p_log p) -> process_step g p q ->
  exists g' q', other_networks g g' /\ goes g' (launch iter w root name threads duration number record pod d) q' /\ tests_part (p_log q') = tests_part (p_log q) /\ p_flag q' = p_flag q /\ answered_by v g' (p_log q').
Proof.
  intros Cr Ap G An S. destruct (shared_step (fun _ => True) v g _ _ _ _ _ _ _ _ _ _ _ _ Cr Ap G An S I (fun _ _ _ _ => I)) as (g' & q' & O & G' & L & F & A & _). exists g', q'. auto.
Qed.

(** ** and is determined by the order of the threads *)
Lemma events_split x e : forall l t rest, events_of x l = t ++ e :: rest -> exists l1 l2, l = l1 ++ (x, e) :: l2 /\ events_of x l1 = t.
Proof.
  induction l as [|[y f] l IH]; intros t rest E; [destruct t; discriminate E|]. change ((y, f) :: l) with ([(y, f)] ++ l) in E. rewrite events_app in E. destruct (who_dec x y) as [<-|N].
  - rewrite events_own in E. destruct t as [|z t]; cbn [app] in E; injection E as -> E; [exists [], l; auto|]. destruct (IH _ _ E) as (l1 & l2 & -> & <-). exists ((x, z) :: l1), l2. split; [reflexivity|]. change ((x, z) :: l1) with ([(x, z)] ++ l1). now rewrite events_app, events_own.
  - rewrite events_other in E by auto. destruct (IH _ _ E) as (l1 & l2 & -> & <-). exists ((y, f) :: l1), l2. split; [reflexivity|]. change ((y, f) :: l1) with ([(y, f)] ++ l1). now rewrite events_app, events_other.
Qed.
Lemma walks_prefix stat t l v : walks stat t l v -> forall a b, l = a ++ b -> exists u, walks stat t a u.
Proof.
  induction 1 as [t|t c u l v M W IH]; intros a b E.
  - symmetry in E. apply app_eq_nil in E. destruct E as [-> _]. eexists. constructor.
  - destruct a as [|x a]; [eexists; constructor|]. destruct (said c) as [|y [|z r]] eqn:Sc.
    + cbn [app] in E. destruct (IH (x :: a) b E) as (u1 & W1). exists u1. pose proof (wk_move stat t c u _ u1 M W1) as X. now rewrite Sc in X.
    + cbn in E. injection E as -> E. destruct (IH _ _ E) as (u1 & W1). exists u1. pose proof (wk_move stat t c u _ u1 M W1) as X. now rewrite Sc in X.
    + destruct c as [[]|]; discriminate Sc.
Qed.
Lemma tests_all first lg : Forall (fun x : who * event => exists id, fst x = Tester id) lg -> tests_part (map (pair Main) first ++ lg) = map (pair Main) first ++ lg.
Proof.
  intros F. rewrite tests_app, tests_main. f_equal. induction F as [|[x e] l (id & E) _ IH]; [reflexivity|]. cbn [fst] in E. subst x. unfold tests_part in *. cbn [filter fst]. now rewrite IH.
Qed.
Lemma sw_next {A} (a : list A) x l l' : starts_with (a ++ [x]) l -> starts_with l l' -> exists r, l' = a ++ x :: r.
Proof. intros [y ->] [z ->]. exists (y ++ z). now rewrite <- !app_assoc. Qed.
Lemma determined_jobs v g g' js first d d' p p' : g_stat g = false -> g_stat g' = false -> (forall j, In j js -> j_file j = None) -> NoDup (map j_thread js) ->
  goes g (begin js first d) p -> goes g' (begin js first d') p' -> (forall id, same_machine (g_world g id) (g_world g' id)) -> answered_by v g (p_log p) -> answered_by v g' (p_log p') ->
  starts_with (map fst (p_log p)) (map fst (p_log p')) -> starts_with (p_log p) (p_log p').
Proof.
  intros St St' Nf ND G G' Sm An An' Pf. destruct (made g js first d p St Nf ND G) as (a1 & a2 & lg & Mo). destruct (made g' js first d' p' St' Nf ND G') as (b1 & b2 & lg' & Mo').
  pose proof (mo_log _ _ _ _ _ _ _ Mo) as Lg. pose proof (mo_log _ _ _ _ _ _ _ Mo') as Lg'.
  assert (Fa : Forall (fun x : who * event => exists id, fst x = Tester id) lg) by (eapply Forall_impl; [|exact (mo_by _ _ _ _ _ _ _ Mo)]; intros x (j & _ & F); eauto).
  assert (Fa' : Forall (fun x : who * event => exists id, fst x = Tester id) lg') by (eapply Forall_impl; [|exact (mo_by _ _ _ _ _ _ _ Mo')]; intros x (j & _ & F); eauto).
  rewrite Lg, Lg' in *. unfold answered_by in An, An'. rewrite tests_all in An by auto. rewrite tests_all in An' by auto. rewrite !map_app in Pf. apply sw_cancel in Pf. apply sw_front.
  assert (K : forall a b, lg = a ++ b -> starts_with a lg').
  { induction a as [|[x e] a IH] using rev_ind; intros b E; [exists lg'; reflexivity|]. rewrite <- app_assoc in E. cbn [app] in E. destruct (IH _ E) as (r & R).
    assert (Hd : exists e' r', r = (x, e') :: r').
    { rewrite E, R, !map_app in Pf. cbn [map fst] in Pf. apply sw_cancel in Pf. destruct Pf as (y & Y). cbn [app] in Y. destruct r as [|[x' e'] r']; [discriminate Y|]. cbn [map fst] in Y. injection Y as -> _. eauto. }
    destruct Hd as (e' & r' & ->). cut (e' = e); [intros ->; exists r'; rewrite R, <- app_assoc; reflexivity|].
    assert (I : In (x, e) lg) by (rewrite E; apply in_or_app; right; now left). rewrite Forall_forall in Fa. destruct (Fa _ I) as (id & X). cbn [fst] in X. subst x.
    assert (Eo : events_of (Tester id) lg = events_of (Tester id) a ++ e :: events_of (Tester id) b) by (rewrite E; change ((Tester id, e) :: b) with ([(Tester id, e)] ++ b); now rewrite !events_app, events_own).
    assert (Eo' : events_of (Tester id) lg' = events_of (Tester id) a ++ e' :: events_of (Tester id) r') by (rewrite R; change ((Tester id, e') :: r') with ([(Tester id, e')] ++ r'); now rewrite !events_app, events_own).
    destruct (made_thread _ _ _ _ _ _ _ id Mo) as [Z|(j & t & Ij & _ & Ej & u & W & _)]; [rewrite Z in Eo; destruct (events_of (Tester id) a); discriminate Eo|].
    destruct (made_thread _ _ _ _ _ _ _ id Mo') as [Z|(j' & t' & Ij' & _ & Ej' & u' & W' & _)]; [rewrite Z in Eo'; destruct (events_of (Tester id) a); discriminate Eo'|].
    assert (j' = j) by (eapply same_job; [exact ND|rewrite (mo_jobs _ _ _ _ _ _ _ Mo')|rewrite (mo_jobs _ _ _ _ _ _ _ Mo)|congruence]; apply in_or_app; auto). subst j'.
    rewrite Ej, Eo in W. rewrite Ej, Eo' in W'. destruct (walks_prefix _ _ _ _ W (events_of (Tester id) a ++ [e]) (events_of (Tester id) b)) as (u1 & W1); [now rewrite <- app_assoc|].
    destruct (walks_causal false (g_world g' id) (events_of (Tester id) a ++ [e]) _ _ _ W1 []) as (v1 & V1).
    - change (te_env (new_tester g j)) with (g_world g (j_thread j)). rewrite Ej. apply Sm.
    - reflexivity.
    - reflexivity.
    - change (te_env (new_tester g j)) with (g_world g (j_thread j)). rewrite Ej. intros t0 m0 [y Y] N. destruct y as [|z y] using rev_ind; [exfalso; apply N; now rewrite app_nil_r in Y|]. rewrite app_assoc in Y. apply app_inj_tail in Y. destruct Y as [Y _].
      rewrite <- app_assoc in Y. cbn [app] in Y. destruct (events_split _ _ _ _ _ Y) as (l1 & l2 & El & <-).
      specialize (An (map (pair Main) first ++ l1) id m0 (l2 ++ (Tester id, e) :: b)). specialize (An' (map (pair Main) first ++ l1) id m0 (l2 ++ (Tester id, e') :: r')).
      rewrite events_app, events_main in An, An' by discriminate. cbn [app] in An, An'. rewrite An, An'; [reflexivity|rewrite R, El|rewrite E, El]; rewrite <- !app_assoc; reflexivity.
    - assert (Rl : relocate (g_world g' id) (new_tester g j) = new_tester g' j).
      { assert (N : j_file j = None) by (apply Nf; rewrite (mo_jobs _ _ _ _ _ _ _ Mo); apply in_or_app; auto). unfold new_tester, relocate. rewrite N, Ej. reflexivity. }
      rewrite Rl in V1. destruct (walks_agree _ _ _ _ V1 _ _ W') as [(y & _ & Y)|(y & _ & Y)].
      + rewrite <- app_assoc in Y. apply app_inv_head in Y. injection Y as Y _. exact Y.
      + rewrite <- app_assoc in Y. apply app_inv_head in Y. injection Y as Y _. now symmetry. }
  apply (K lg []). symmetry. apply app_nil_r.
Qed.
Theorem shared_determined v g g' iter w root name threads duration number record record' pod pod' d d' p p' : numbered_apart iter w root name -> (forall id, same_machine (g_world g id) (g_world g' id)) ->
  goes g (launch iter w root name threads duration number record pod d) p -> goes g' (launch iter w root name threads duration number record' pod' d') p' ->
  answered_by v g (p_log p) -> answered_by v g' (p_log p') ->
  starts_with (map fst (tests_part (p_log p))) (map fst (tests_part (p_log p'))) -> starts_with (tests_part (p_log p)) (tests_part (p_log p')).
Proof.
  intros Ap Sm G G' An An' Pf. assert (W : same_worlds g (bare g)) by (intros id; reflexivity). assert (W' : same_worlds g' (bare g')) by (intros id; reflexivity).
  destruct (aside_off g (bare g) _ _ _ _ _ _ _ _ _ pod _ d _ W eq_refl G) as (p0 & G0 & L0 & _). destruct (aside_off g' (bare g') _ _ _ _ _ _ _ _ _ pod _ d _ W' eq_refl G') as (p0' & G0' & L0' & _).
  assert (Tw : forall l, tests_part (tests_part l) = tests_part l). { intros l. unfold tests_part. induction l as [|[x e] l IH]; [reflexivity|]. cbn [filter fst]. destruct x; cbn [filter fst]; now rewrite IH. }
  rewrite <- L0, <- L0' in *. destruct (launch_begins iter w root name threads duration number pod d Ap) as [(js & first & B & Nf & ND)|[B _]].
  - rewrite B in *. apply (determined_jobs v (bare g) (bare g') js first d d p0 p0'); auto; unfold answered_by in *; [rewrite L0, Tw|rewrite L0', Tw]; assumption.
  - rewrite (B _ p0 G0), (B _ p0' G0'). apply sw_refl.
Qed.
