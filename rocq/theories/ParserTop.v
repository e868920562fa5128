(** Whole sources: soundness *)
From Verif Require Import Parser SpecSyntax TextProofs LexerProofs ParserBase ParserSound.
Open Scope N_scope.

Ltac neof := let X := fresh in intro X; discriminate X.

Definition collect (src : source) (i : item) : source :=
  match i with
  | IExpr e => Source (s_exprs src ++ [e]) (s_requests src) (s_tests src)
  | IRequest n m es => Source (s_exprs src) (mset n (m, es) (s_requests src)) (s_tests src)
  | ITest n b => Source (s_exprs src) (s_requests src) (mset n b (s_tests src))
  end.

Definition item_good (i : item) : Prop :=
  match i with IExpr e => good e | IRequest _ _ es => goods es | ITest _ b => goods b end.

Lemma request_sound n ts r ts' : live ts -> tkind (current ts) = KRequest -> parse_request n ts = POk r ts' ->
  exists w, eats ts w ts' /\ syntax_item false (IRequest (fst (fst r)) (snd (fst r)) (snd r)) w /\ goods (snd r).
Proof.
  intros L K H. unfold parse_request in H. cbv zeta in H.
  pinv H as u1 ts1 E1. pinv H as u2 ts2 E2.
  destruct (eats_expect _ _ _ _ _ _ (eats_one _ L) E1 ltac:(neof)) as (t1 & A1 & K1 & S1 & C1).
  destruct (eats_expect _ _ _ _ _ _ A1 E2 ltac:(neof)) as (t2 & A2 & K2 & S2 & C2).
  rewrite (current_op ts _ (lit "request") L K ltac:(inop)), (tok_eta _ _ K1), (tok_eta _ _ K2) in A2.
  rewrite C1, C2 in H.
  destruct (peek_is KLs ts2) eqn:P.
  - pinv H as es ts3 E3. inversion H; subst; clear H.
    destruct (eats_peek _ _ _ _ A2 P ltac:(neof)) as (t3 & A3 & K3 & S3 & C3).
    destruct (so_list _ (sound n) _ _ _ _ (eats_live _ _ _ A3) E3 ltac:(neof)) as (w & t4 & A4 & K4 & S4 & Sl & Gs).
    pose proof (eats_glue _ _ _ _ _ _ A3 A4) as A5.
    rewrite (spelled_op _ _ _ S3 K3 ltac:(inop)), (spelled_op _ _ _ S4 K4 ltac:(inop)) in A5.
    eexists. split; [exact A5|]. split; auto. cbn [fst snd app]. now apply si_request_asserts.
  - inversion H; subst; clear H. eexists. split; [exact A2|]. split; [|constructor]. constructor.
Qed.

Lemma test_sound n ts r ts' : live ts -> tkind (current ts) = KTest -> parse_test n ts = POk r ts' ->
  exists w, eats ts w ts' /\ syntax_item false (ITest (fst r) (snd r)) w /\ goods (snd r).
Proof.
  intros L K H. unfold parse_test in H. cbv zeta in H.
  pinv H as u1 ts1 E1. pinv H as b ts2 E2. inversion H; subst; clear H.
  destruct (eats_expect _ _ _ _ _ _ (eats_one _ L) E1 ltac:(neof)) as (t1 & A1 & K1 & S1 & C1).
  destruct (so_block _ (sound n) _ _ _ (eats_live _ _ _ A1) E2) as (w & A2 & Sl & Gs).
  pose proof (eats_glue _ _ _ _ _ _ A1 A2) as A3. rewrite C1.
  rewrite (current_op ts _ (lit "test") L K ltac:(inop)), (tok_eta _ _ K1) in A3.
  eexists. split; [exact A3|]. split; auto. cbn [fst snd app]. now apply si_test.
Qed.

Lemma eats_next ts w ts' : eats ts w ts' -> ts = w ++ next ts' /\ wf (next ts').
Proof.
  intros E. pose proof (live_next _ (eats_live _ _ _ E)) as (W & t & X & _).
  split; auto. rewrite (eats_app _ _ _ E). f_equal. rewrite X at 1. reflexivity.
Qed.

Definition top_post src ts src' (ts' : toks) : Prop :=
  exists is w l, ts = w ++ [Tok KEof l] /\ syntax_items is w /\ src' = fold_left collect is src /\ Forall item_good is.

Lemma top_step n src ts i w ts1 src' ts' :
  (forall src ts src' ts', wf ts -> parse_top n src ts = POk src' ts' -> top_post src ts src' ts') ->
  eats ts w ts1 -> syntax_item false i w -> item_good i ->
  parse_top n (collect src i) (next (skip_semi ts1)) = POk src' ts' -> top_post src ts src' ts'.
Proof.
  intros IH A Si G H. unfold skip_semi in H. destruct (peek_is KSemi ts1) eqn:P.
  - destruct (eats_peek _ _ _ _ A P ltac:(neof)) as (t & A1 & K & S & _).
    rewrite (spelled_op _ _ _ S K ltac:(inop)) in A1.
    destruct (eats_next _ _ _ A1) as [-> W].
    destruct (IH _ _ _ _ W H) as (is & w' & l & -> & Sis & -> & Gs).
    exists (i :: is), (w ++ op KSemi ";" :: w'), l. split; [now rewrite <- !app_assoc|].
    split; [now apply sis_semi|]. split; auto.
  - destruct (eats_next _ _ _ A) as [-> W].
    destruct (IH _ _ _ _ W H) as (is & w' & l & -> & Sis & -> & Gs).
    exists (i :: is), (w ++ w'), l. split; [now rewrite <- !app_assoc|].
    split; [now apply sis_cons|]. split; auto.
Qed.

Lemma top_sound n : forall src ts src' ts', wf ts -> parse_top n src ts = POk src' ts' -> top_post src ts src' ts'.
Proof.
  induction n as [|n IH]; [discriminate|]. intros src ts src' ts' W H. cbn [parse_top] in H.
  assert (D : tkind (current ts) = KEof \/ tkind (current ts) = KRequest \/ tkind (current ts) = KTest \/
    (tkind (current ts) <> KEof /\ pbind (parse_expr n prec_min ts) (fun e ts =>
          parse_top n (Source (s_exprs src ++ [e]) (s_requests src) (s_tests src))
            (next (skip_semi ts))) = POk src' ts')).
  { destruct (tkind (current ts)) eqn:K; auto; right; right; right; (split; [discriminate|exact H]). }
  destruct D as [K|[K|[K|[K H']]]].
  - rewrite K in H. inversion H; subst. inversion W as [l|t r S W']; subst; simpl in K; [|destruct (spelled_not_eof _ S K)].
    exists [], [], l. split; auto. split; [constructor|]. split; auto.
  - rewrite K in H. pinv H as r ts1 E1. destruct r as [[nm m] es].
    destruct (request_sound _ _ _ _ (wf_live _ W ltac:(congruence)) K E1) as (w & A & Si & G). cbn [fst snd] in *.
    eapply (top_step n src ts (IRequest nm m es)); eauto.
  - rewrite K in H. pinv H as r ts1 E1. destruct r as [nm b].
    destruct (test_sound _ _ _ _ (wf_live _ W ltac:(congruence)) K E1) as (w & A & Si & G). cbn [fst snd] in *.
    eapply (top_step n src ts (ITest nm b)); eauto.
  - pinv H' as e ts1 E1.
    destruct (post_good _ _ _ _ (so_expr _ (sound n) _ _ _ _ W E1)) as (w & A & Sx & G).
    eapply (top_step n src ts (IExpr e)); eauto. now constructor.
Qed.

Lemma collect_exprs is : forall src, s_exprs (fold_left collect is src) = s_exprs src ++ item_exprs is.
Proof.
  induction is as [|i is IH]; intros src; simpl; [now rewrite app_nil_r|].
  rewrite IH. destruct i; simpl; auto. now rewrite <- app_assoc.
Qed.
Lemma collect_requests is : forall src, s_requests (fold_left collect is src) = mextend (s_requests src) (item_requests is).
Proof. induction is as [|i is IH]; intros src; simpl; auto. rewrite IH. destruct i; reflexivity. Qed.
Lemma collect_tests is : forall src, s_tests (fold_left collect is src) = mextend (s_tests src) (item_tests is).
Proof. induction is as [|i is IH]; intros src; simpl; auto. rewrite IH. destruct i; reflexivity. Qed.

Lemma mextend_app {V} (m : amap V) a b : mextend m (a ++ b) = mextend (mextend m a) b.
Proof. unfold mextend. apply fold_left_app. Qed.

Lemma mextend_absent {V} k b : forall (m : amap V), ~ In k (map fst b) -> mget k (mextend m b) = mget k m.
Proof.
  induction b as [|[k' v'] b IH]; intros m N; auto. simpl in N. change (mextend m ((k', v') :: b)) with (mextend (mset k' v' m) b).
  rewrite IH by tauto. apply mget_mset_other. intros X; apply N; left; auto.
Qed.

Lemma mextend_last {V} k (v : V) l : mget k (mextend [] l) = Some v <-> last_def k l v.
Proof.
  split.
  - revert v. induction l as [|[k' v'] l IH] using rev_ind; intros v H; [discriminate|].
    rewrite mextend_app in H. cbn [mextend fold_left fst snd] in H. rewrite mget_mset in H.
    destruct (str_eqb k k') eqn:E.
    + inversion H; subst. apply str_eqb_eq in E. subst. exists l, []. split; auto.
    + destruct (IH _ H) as (a & b & -> & N). exists a, (b ++ [(k', v')]).
      split; [now rewrite <- app_assoc|]. rewrite map_app. intros X. apply in_app_or in X.
      destruct X as [X|[X|[]]]; [contradiction|]. apply str_eqb_neq in E. simpl in X. congruence.
  - intros (a & b & -> & N). rewrite mextend_app. change ((k, v) :: b) with ([(k, v)] ++ b). rewrite mextend_app.
    rewrite mextend_absent by auto. cbn [mextend fold_left fst snd]. apply mget_mset_same.
Qed.

Lemma mextend_none {V} k (l : list (str * V)) : mget k (mextend [] l) = None <-> ~ In k (map fst l).
Proof.
  split.
  - intros H I. apply in_map_iff in I. destruct I as ([k' v] & E & I). simpl in E. subst k'.
    assert (X : exists v, last_def k l v).
    { clear H. revert v I. induction l as [|[k' v'] l IH] using rev_ind; intros v I; [destruct I|].
      destruct (str_dec k' k) as [->|E].
      - exists v', l, []. split; auto.
      - apply in_app_or in I. destruct I as [I|[I|[]]]; [|congruence].
        destruct (IH _ I) as (w & a & b & -> & N). exists w, a, (b ++ [(k', v')]). split; [now rewrite <- app_assoc|].
        rewrite map_app. intros X. apply in_app_or in X. destruct X as [X|[X|[]]]; [contradiction|]. simpl in X. congruence. }
    destruct X as [w X]. apply mextend_last in X. congruence.
  - intros N. rewrite mextend_absent by auto. reflexivity.
Qed.

Lemma mset_in {V} k (v : V) x m : In x (mset k v m) -> In x m \/ x = (k, v).
Proof.
  induction m as [|[k' v'] m IH]; simpl.
  - intros [H|[]]; auto.
  - destruct (str_eqb k k') eqn:E; simpl; intros [H|H]; auto.
    + apply str_eqb_eq in E. subst. auto.
    + destruct (IH H); auto.
Qed.
Lemma mextend_in {V} l : forall (m : amap V) x, In x (mextend m l) -> In x m \/ In x l.
Proof.
  induction l as [|[k v] l IH]; intros m x H; auto. apply (IH (mset k v m)) in H. destruct H as [H|H]; [|right; now right].
  apply mset_in in H. destruct H as [H| ->]; auto. right; now left.
Qed.

Lemma parse_shape text src : parse text = Ok src -> exists is w,
  segment text = w ++ [Tok KEof []] /\ syntax_items is w /\ src = fold_left collect is (Source [] [] []) /\ Forall item_good is.
Proof.
  intros H. unfold parse, parse_fuel in H. destruct (parse_top _ _ _) as [s ts'|?|] eqn:E; inversion H; subst.
  destruct (top_sound _ _ _ _ _ (wf_segment text) E) as (is & w & l & S & Si & -> & G).
  exists is, w. destruct (segment_shape text) as (ts & S' & _). rewrite S' in S. apply app_inj_tail in S. destruct S as [-> [= <-]].
  auto.
Qed.

Lemma accounted text src : parse text = Ok src -> exists is w,
  segment text = w ++ [Tok KEof []] /\ syntax_items is w /\
  s_exprs src = item_exprs is /\
  (forall n d, mget n (s_requests src) = Some d <-> last_def n (item_requests is) d) /\
  (forall n b, mget n (s_tests src) = Some b <-> last_def n (item_tests is) b).
Proof.
  intros H. destruct (parse_shape _ _ H) as (is & w & S & Si & -> & _). exists is, w.
  rewrite collect_exprs, collect_requests, collect_tests. repeat split; auto; apply mextend_last.
Qed.

Lemma collected text src : parse text = Ok src -> exists is w,
  segment text = w ++ [Tok KEof []] /\ syntax_items is w /\
  s_exprs src = item_exprs is /\
  (forall n, mget n (s_requests src) = None <-> ~ In n (map fst (item_requests is))) /\
  (forall n, mget n (s_tests src) = None <-> ~ In n (map fst (item_tests is))) /\
  NoDup (map fst (s_requests src)) /\ NoDup (map fst (s_tests src)).
Proof.
  intros H. destruct (parse_shape _ _ H) as (is & w & S & Si & -> & _). exists is, w.
  rewrite collect_exprs, collect_requests, collect_tests. repeat split; auto; try apply mextend_none.
  - apply mextend_nodup. constructor.
  - apply mextend_nodup. constructor.
Qed.

Lemma precedence_respected text src e : parse text = Ok src ->
  In e (s_exprs src) \/ (exists n m es, mget n (s_requests src) = Some (m, es) /\ In e es) \/
  (exists n b, mget n (s_tests src) = Some b /\ In e b) ->
  no_let_operand e -> prec_ok e.
Proof.
  intros H I N. destruct (parse_shape _ _ H) as (is & w & S & Si & -> & G).
  rewrite collect_exprs, collect_requests, collect_tests in I. rewrite Forall_forall in G.
  assert (X : good e); [|now apply X].
  destruct I as [I|[(n & m & es & I & J)|(n & b & I & J)]].
  - apply in_flat_map in I. destruct I as (i & Ii & I). specialize (G _ Ii). destruct i; simpl in I; try contradiction.
    destruct I as [<-|[]]. exact G.
  - apply mget_some_in in I. apply mextend_in in I. destruct I as [[]|I].
    apply in_flat_map in I. destruct I as (i & Ii & I). specialize (G _ Ii). destruct i; simpl in I; try contradiction.
    destruct I as [[= -> -> ->]|[]]. simpl in G. unfold goods in G. rewrite Forall_forall in G. auto.
  - apply mget_some_in in I. apply mextend_in in I. destruct I as [[]|I].
    apply in_flat_map in I. destruct I as (i & Ii & I). specialize (G _ Ii). destruct i; simpl in I; try contradiction.
    destruct I as [[= -> ->]|[]]. simpl in G. unfold goods in G. rewrite Forall_forall in G. auto.
Qed.
