(** Evaluation keeps states valid *)
From Verif Require Import SpecValid TextProofs SyntaxProofs ParserSound ParserTop ValueProofs EvaluatorProofs ValidProofs ParserExamples.
Open Scope Z_scope.

Definition good_state (s : st) : Prop :=
  valid (VMap (c_vars (s_ctx s))) /\
  forall n m es, mget n (c_reqs (s_ctx s)) = Some (m, es) -> Forall literals_ok es.
Definition keeps {A} (P : A -> Prop) (m : evm A) : Prop :=
  forall s o s', good_state s -> m s = (o, s') -> good_state s' /\ forall a, o = Ok a -> P a.

Lemma keeps_ret {A} (P : A -> Prop) a : P a -> keeps P (ret a).
Proof. intros H s o s' G [= <- <-]. split; auto. now intros b [= <-]. Qed.
Lemma keeps_lift {A} (P : A -> Prop) r : (forall a, r = Ok a -> P a) -> keeps P (lift r).
Proof. intros H s o s' G [= <- <-]. auto. Qed.
Lemma keeps_bind {A B} (P : A -> Prop) (Q : B -> Prop) (m : evm A) k :
  keeps P m -> (forall a, P a -> keeps Q (k a)) -> keeps Q (bind m k).
Proof.
  intros M K s o s' G H. apply bind_inv in H. destruct H as [(a & s1 & E & H)|(o1 & E & N & ->)].
  - destruct (M _ _ _ G E) as [G1 P1]. exact (K a (P1 a eq_refl) _ _ _ G1 H).
  - destruct (M _ _ _ G E) as [G1 _]. split; auto. intros b X. destruct o1; cbn in X; try discriminate.
Qed.

Section Keeps.
  Variables (h : host) (call : str -> list value -> evm value).
  Hypothesis call_keeps : forall n vs, Forall valid vs -> keeps valid (call n vs).

  Lemma evl_keeps es : Forall (fun e => literals_ok e -> keeps valid (eval h call e)) es -> Forall literals_ok es ->
    keeps (Forall valid) (evl h call es).
  Proof.
    induction 1 as [|e es He _ IH]; intros L; [apply keeps_ret; constructor|]. inversion L; subst. cbn [evl].
    eapply keeps_bind; [apply He; auto|]. intros v V. eapply keeps_bind; [apply IH; auto|]. intros vs F. apply keeps_ret. auto.
  Qed.
  Lemma evp_keeps ps : Forall (fun kv : expr * expr => (literals_ok (fst kv) -> keeps valid (eval h call (fst kv))) /\
      (literals_ok (snd kv) -> keeps valid (eval h call (snd kv)))) ps ->
    Forall (fun kv => literals_ok (fst kv) /\ literals_ok (snd kv)) ps ->
    forall m, valid (VMap m) -> keeps (fun m => valid (VMap m)) (evp h call m ps).
  Proof.
    induction 1 as [|[k v] ps [Hk Hv] _ IH]; intros L m M; [now apply keeps_ret|]. inversion L as [|? ? [A B] L']; subst. cbn [evp fst snd] in *.
    eapply keeps_bind; [apply Hk; auto|]. intros kv K. eapply keeps_bind; [apply Hv; auto|]. intros vv V.
    apply IH; auto. apply mset_valid; auto. now apply show_scalars.
  Qed.
  Lemma block_keeps es : Forall (fun e => literals_ok e -> keeps valid (eval h call e)) es -> Forall literals_ok es ->
    forall v, valid v -> keeps valid (eval_exprs h call v es).
  Proof.
    induction 1 as [|e es He _ IH]; intros L v V; [now apply keeps_ret|]. inversion L; subst. cbn [eval_exprs].
    eapply keeps_bind; [apply He; auto|]. intros w W. now apply IH.
  Qed.

  Lemma eval_keeps e : literals_ok e -> keeps valid (eval h call e).
  Proof.
    unfold literals_ok. induction e as [z|f|b|x|es IH|ps IH|e i IHe IHi|e f IHe|n|n e IHe|t e IHe|t l r IHl IHr|e IHe|c a b IHc IHa IHb|n es IH] using expr_ind2;
      intros L; apply everywhere_eq in L; destruct L as [P L]; try (cbn [eval]; now apply keeps_ret).
    - rewrite eval_arr. eapply keeps_bind; [now apply evl_keeps|]. intros vs F. apply keeps_ret. now apply valid_arr.
    - rewrite eval_map. eapply keeps_bind; [apply evp_keeps; auto; cbn; split; constructor|]. intros m M. now apply keeps_ret.
    - cbn [eval]. eapply keeps_bind; [now apply IHe|]. intros v V. eapply keeps_bind; [now apply IHi|]. intros w W. apply keeps_lift. now apply index_valid.
    - cbn [eval]. eapply keeps_bind; [now apply IHe|]. intros v V. apply keeps_lift. now apply field_valid.
    - cbn [eval]. intros s o s' G E. destruct (ctx_get (s_ctx s) n) eqn:Q; inversion E; subst; split; auto; intros a X; inversion X; subst.
      destruct G as [G _]. eapply mget_valid; eauto.
    - cbn [eval]. eapply keeps_bind; [now apply IHe|]. intros v V s o s' [G1 G2] E. inversion E; subst. split; [|now intros a [= <-]].
      split; [|exact G2]. cbn. apply mset_valid; auto.
    - cbn [eval]. eapply keeps_bind; [now apply IHe|]. intros v V. apply keeps_lift. now apply unary_valid.
    - cbn [eval]. destruct L as [Ll Lr]. destruct (strict_op h (tkind t)) as [f|] eqn:S.
      + eapply keeps_bind; [now apply IHl|]. intros v V. eapply keeps_bind; [now apply IHr|]. intros w W. apply keeps_lift. eapply strict_valid; eauto.
      + destruct (tkind t); try (apply keeps_lift; discriminate).
        * eapply keeps_bind; [now apply IHl|]. intros v V. destruct (falsy v); [now apply IHr|now apply keeps_ret].
        * eapply keeps_bind; [now apply IHl|]. intros v V. destruct (falsy v); [now apply keeps_ret|now apply IHr].
    - cbn [eval]. now apply IHe.
    - rewrite eval_if. destruct L as (Lc & La & Lb). eapply keeps_bind; [now apply IHc|]. intros v V.
      destruct (falsy v); apply block_keeps; auto; exact I.
    - rewrite eval_callx. eapply keeps_bind; [now apply evl_keeps|]. auto.
  Qed.
End Keeps.

Lemma native_keeps h n vs : Forall valid vs -> keeps valid (native_call h n vs).
Proof.
  intros F. unfold native_call.
  assert (G : forall f : host -> list value -> res * str, (forall v t, f h vs = (Ok v, t) -> v = VNull) ->
    keeps valid (fun s => match f h vs with (Ok v, t) => (Ok v, emit (Printed t) s) | (r, _) => (r, s) end)).
  { intros f N s o s' Gs E. destruct (f h vs) as [[v|e| |] t] eqn:Q; inversion E; subst; split; auto; try discriminate.
    intros a [= <-]. rewrite (N _ _ eq_refl). exact I. }
  destruct (str_eqb _ _).
  { apply (G native_println). unfold native_println. intros v t. destruct (native_format h vs); now intros [= <- _]. }
  destruct (str_eqb _ _).
  { apply (G native_print). unfold native_print. intros v t. destruct (native_format h vs); now intros [= <- _]. }
  destruct (str_eqb _ _); [apply keeps_lift; now apply format_valid|].
  destruct (str_eqb _ _); [apply keeps_lift; now apply length_valid|].
  destruct (str_eqb _ _); [apply keeps_lift; now apply append_valid|].
  apply keeps_lift. discriminate.
Qed.

Lemma or_null_keeps m : keeps valid m -> keeps valid (or_null m).
Proof.
  intros M s o s' G E. unfold or_null in E. destruct (m s) as [o1 s1] eqn:Q. destruct (M _ _ _ G Q) as [G1 V1].
  destruct o1; inversion E; subst; split; auto; try discriminate. intros a [= <-]. exact I.
Qed.
Lemma asserts_keep h ev es : (forall e, literals_ok e -> keeps valid (ev e)) -> Forall literals_ok es ->
  keeps (fun _ : list assertion => True) (eval_asserts h ev es).
Proof.
  intros K F. induction F as [|e es L F IH]; cbn [eval_asserts]; [now apply keeps_ret|].
  destruct e; try exact IH. unfold literals_ok in L. apply everywhere_eq in L. destruct L as [_ [L1 L2]].
  eapply keeps_bind; [apply or_null_keeps, K, L1|]. intros v V. eapply keeps_bind; [apply or_null_keeps, K, L2|]. intros u U.
  eapply keeps_bind; [exact IH|]. intros as_ _. now apply keeps_ret.
Qed.

Lemma request_keeps w ev n msg es : (forall e, literals_ok e -> keeps valid (ev e)) -> Forall literals_ok es ->
  keeps valid (request_call w ev n msg es).
Proof.
  intros K F s o s' G E. unfold request_call in E.
  destruct (client_send _ _ _) as [[[[rq rs] t] er]|e| |] eqn:C; try (inversion E; subst; split; [exact G|discriminate]).
  apply send_text in C. destruct (to_map (e_host w) rs) as [m|e| |] eqn:M; try (inversion E; subst; split; [exact G|discriminate]).
  apply (to_map_valid _ _ _ C) in M.
  set (sl0 := St (ctx_from m) _) in E.
  assert (G0 : good_state sl0) by (split; [exact M|cbn; discriminate]).
  destruct (eval_asserts _ ev es sl0) as [oa sl] eqn:A. destruct (asserts_keep (e_host w) ev es K F _ _ _ G0 A) as [G1 _].
  destruct oa; inversion E; subst; (split; [exact G|]); try discriminate. intros v [= <-]. apply G1.
Qed.

Lemma call_keeps w d : forall n vs, Forall valid vs -> keeps valid (call_at w d n vs).
Proof.
  induction d as [|d IH]; intros n vs F s o s' G E; cbn [call_at] in E;
    destruct (ctx_request (s_ctx s) n) as [[msg es]|] eqn:Q; try (eapply native_keeps; eauto; fail).
  - inversion E; subst. split; auto. discriminate.
  - refine (request_keeps w _ n msg es _ _ s o s' G E).
    + intros e L. now apply eval_keeps.
    + destruct G as [_ G]. eapply G. exact Q.
Qed.

Lemma good_valid s : valid_state s -> good_state s.
Proof.
  intros [V R]. split; auto. intros n m es E. apply Forall_forall. intros e I. apply text_literals. eauto.
Qed.

Lemma eval_reqs w e s o s' : eval_expr w e s = (o, s') -> c_reqs (s_ctx s') = c_reqs (s_ctx s).
Proof. intros E. eapply ef_reqs. exact (eval_effect _ _ (call_effect w) e _ _ _ E). Qed.

Lemma values_valid w e s o s' : valid_state s -> read_from_text e -> eval_expr w e s = (o, s') ->
  valid_state s' /\ forall v, o = Ok v -> valid v.
Proof.
  intros S R E. destruct (eval_keeps _ _ (call_keeps w 1) e (text_literals _ R) _ _ _ (good_valid _ S) E) as [G V].
  split; auto. split; [apply G|]. rewrite (eval_reqs _ _ _ _ _ E). apply S.
Qed.
Lemma block_reqs w es : forall v s o s', eval_exprs (e_host w) (call_at w 1) v es s = (o, s') -> c_reqs (s_ctx s') = c_reqs (s_ctx s).
Proof.
  intros v s o s' E. eapply ef_reqs. eapply block_effect; [|exact E]. apply Forall_forall. intros e _. apply eval_effect. apply call_effect.
Qed.
Lemma block_valid w es s o s' : valid_state s -> (forall e, In e es -> read_from_text e) ->
  eval_block w es s = (o, s') -> valid_state s' /\ forall v, o = Ok v -> valid v.
Proof.
  intros S R E. unfold eval_block in E.
  assert (B : keeps valid (eval_exprs (e_host w) (call_at w 1) VNull es)).
  { apply block_keeps; [| |exact I]; apply Forall_forall; intros e J.
    - intros L. apply eval_keeps; auto. now apply call_keeps.
    - apply text_literals. auto. }
  destruct (B _ _ _ (good_valid _ S) E) as [G V]. split; auto. split; [apply G|]. rewrite (block_reqs _ _ _ _ _ _ E). apply S.
Qed.
Lemma extend_valid text src s : scalars text -> parse text = Ok src -> valid_state s ->
  valid_state (upd (fun c => ctx_extend c (s_requests src)) s).
Proof.
  intros T P [V R]. split; [exact V|]. cbn [upd s_ctx ctx_extend c_reqs]. intros n m es e G J. rewrite mget_mextend in G.
  destruct (mget n (rev (s_requests src))) as [d|] eqn:Q; [|eapply R; eauto]. inversion G; subst.
  exists text, src. split; auto. split; auto. right. left. exists n, m, es. split; auto.
  apply mget_some_in in Q. apply in_rev in Q. apply in_mget; auto.
  destruct (collected_all _ _ P) as (is & w & _ & _ & _ & _ & _ & _ & _ & D & _). exact D.
Qed.
Lemma start_valid : valid_state (St ctx_new []).
Proof. split; [cbn; split; constructor|]. cbn. discriminate. Qed.
Lemma sub_valid v : valid v ->
  (forall l x, v = VArr l -> In x l -> valid x) /\
  (forall l, v = VMap l -> NoDup (map fst l) /\ forall k x, In (k, x) l -> scalars k /\ valid x) /\ unique_keys v.
Proof.
  intros V. split; [|split].
  - intros l x -> J. apply valid_arr in V. rewrite Forall_forall in V. auto.
  - intros l ->. apply valid_map in V. destruct V as [D V]. split; auto. intros k x J. rewrite Forall_forall in V. apply (V _ J).
  - now apply valid_unique.
Qed.
